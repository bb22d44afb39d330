(** What the formatter prints for a node is laid out as SpecLayout.v says. *)

From Coq Require Import String List NArith Bool Arith Lia.
From Verif Require Import Text Kind Green SpecParser SpecSyntax SpecFormat Format FmtLang FmtPieces FmtSteps FmtTrivia FmtRun FmtNode FmtTree FmtDoc FmtEmit FmtPlain SpecLayout.
Import ListNotations.
Local Open Scope list_scope.

(** ** The pieces of a document of the pretty printer *)

Fixpoint flat (n : nat) (d : doc) : list lpiece :=
  match d with
  | DNil => []
  | DText t => if text_eqb t (T " ") then [Blank] else [Word t]
  | DNewLine => [Line n]
  | DEmptyLine => [EmptyLine]
  | DSoft => [BlankOrLine n]
  | DNest m d => flat (n + m) d
  | DList l => flat_map (flat n) l
  end.
Definition flatl (n : nat) (l : list doc) : list lpiece := flat_map (flat n) l.
Definition flatr (l : list (nat * doc)) : list lpiece := flat_map (fun p => flat (fst p) (snd p)) l.
Lemma flatl_app n a b : flatl n (a ++ b) = flatl n a ++ flatl n b.
Proof. apply flat_map_app. Qed.
Lemma flatl_one n d : flatl n [d] = flat n d.
Proof. apply app_nil_r. Qed.
Lemma flatr_pair n l r : flatr (map (pair n) l ++ r) = flatl n l ++ flatr r.
Proof.
  unfold flatr. rewrite flat_map_app. f_equal. unfold flatl. induction l as [|d l IH]; [reflexivity|].
  cbn [map flat_map fst snd]. now rewrite IH.
Qed.

(** The documents and the pieces need the same room. *)
Lemma doc_room width : forall d n col rest,
  room width col (flat n d ++ rest)
  = match doc_fits tlen width d col with inl b => b | inr c => room width c rest end.
Proof.
  fix IH 1. intros [|t| | | |m d|l] n col rest; cbn [flat doc_fits app room]; try reflexivity.
  - destruct (text_eqb t (T " ")) eqn:E; cbn [app room].
    + apply text_eqb_eq in E. subst t. change (tlen (T " ")) with 1.
      rewrite Nat.add_1_r. rewrite Nat.ltb_antisym. destruct (Nat.leb (S col) width); reflexivity.
    + rewrite Nat.ltb_antisym. destruct (Nat.leb (col + tlen t) width); reflexivity.
  - apply IH.
  - revert col rest. induction l as [|d l IHl]; intros col rest; [reflexivity|]. cbn [flat_map]. rewrite <- app_assoc, IH.
    destruct (doc_fits tlen width d col); [reflexivity|]. apply IHl.
Qed.
Lemma rest_room width : forall rest col, rest_fits tlen width col rest = room width col (flatr rest).
Proof.
  induction rest as [|[n d] rest IH]; intros col; [reflexivity|]. cbn [rest_fits flatr flat_map fst snd].
  fold (flatr rest). rewrite doc_room. destruct (doc_fits tlen width d col); [reflexivity|apply IH].
Qed.

Section Printed.
  Variables (width : nat) (y : layout).
  Hypothesis Hm : measure y = tlen.
  Hypothesis Hf : fits y = rest_fits tlen width.
  Notation tx := (text_of width (line_break y) (indentation y)).

  Lemma printed_pieces : forall d n rest col,
    tx col (flat n d ++ flatr rest)
    = fst (print_doc y d n rest col) ++ tx (snd (print_doc y d n rest col)) (flatr rest).
  Proof.
    fix IH 1. intros [|t| | | |m d|l] n rest col; cbn [flat print_doc app text_of fst snd]; try reflexivity.
    - rewrite Hm. destruct (text_eqb t (T " ")) eqn:E; cbn [app text_of]; [|reflexivity].
      apply text_eqb_eq in E. subst t. change (tlen (T " ")) with 1. now rewrite Nat.add_1_r.
    - now rewrite <- app_assoc.
    - rewrite Hf, rest_room. destruct (room width (S col) (flatr rest)); cbn [fst snd]; [reflexivity|]. now rewrite <- app_assoc.
    - apply IH.
    - revert col. induction l as [|d l IHl]; intros col; [reflexivity|]. cbn [flat_map].
      pose proof (IH d n (map (pair n) l ++ rest) col) as E. rewrite flatr_pair in E.
      rewrite <- app_assoc. fold (flatl n l). rewrite E.
      destruct (print_doc y d n (map (pair n) l ++ rest) col) as [t c1]. cbn [fst snd].
      specialize (IHl c1). fold (flatl n l) in IHl. rewrite IHl.
      destruct ((fix go (l : list doc) (col : nat) : text * nat := _) l c1) as [t' c2]. cbn [fst snd]. now rewrite <- app_assoc.
  Qed.
End Printed.

(** ** A row of children *)

Section Opts.
  Variable o : options.
  Notation w := (indent_width o).
  Notation mo := (more w).
  Notation sp := (fix_comments o).

  Section Row.
    Variables (k : kind) (pb : bool) (n : nat).
    Definition lev (c : green) : nat := n + mo (inner k pb c).
    Definition piece_of (before : list green) (tr : list doc) (i : item) : list lpiece :=
      (if nilb tr then gap_pieces w (lev (i_el i)) (gap_before k before (i_el i))
       else if dropped_before k pb before (i_el i) then [] else flatl (lev (i_el i)) tr)
      ++ flat (lev (i_el i) + mo (deep (i_el i))) (i_doc i).
    Fixpoint rowi (before : list green) (tr : list doc) (l : list item) : list lpiece :=
      match l with
      | [] => []
      | i :: r => piece_of before tr i ++ rowi (i_el i :: before) (after o i) r
      end.
    Lemma rowi_snoc l : forall before tr i,
      rowi before tr (l ++ [i]) = rowi before tr l ++ piece_of (rev (map i_el l) ++ before) (afters o tr l) i.
    Proof.
      induction l as [|j l IH]; intros before tr i; cbn [app rowi map rev].
      - apply app_nil_r.
      - rewrite IH, <- !app_assoc, (afters_cons o). reflexivity.
    Qed.

    Record Inv3 (P0 : list lpiece) (m : nat) (top : bool) (st : fstate) (done : list item) : Prop :=
      { K_ec : P0 ++ flatl m (fst st) = rowi [] [] done
      ; K_tr : snd st = afters o [] done
      ; K_docs : top = true -> nilb (fst st) = nilb done }.

    Record Cond3 (s : step) (paren first : bool) (m : nat) (top : bool) (done : list item) (i : item) : Prop :=
      { E_lev : m = lev (i_el i)
      ; E_lead : forall docs, (top = true -> nilb docs = nilb done) ->
          flatl m (lead_docs o (s_lead s) paren first docs (afters o [] done) i)
          = (if nilb (afters o [] done) then gap_pieces w m (gap_before k (rev (map i_el done)) (i_el i))
             else if dropped_before k pb (rev (map i_el done)) (i_el i) then [] else flatl m (afters o [] done))
      ; E_content : flatl m (content o s i) = flat (m + mo (deep (i_el i))) (i_doc i)
      ; E_new : content o s i <> [] }.

    Lemma emit3 P0 m top s paren first done i st : Cond3 s paren first m top done i ->
      Inv3 P0 m top st done -> Inv3 P0 m top (emit o s paren first i st) (done ++ [i]).
    Proof.
      intros C [V1 V2 V3]. destruct st as [docs tr]. cbn [fst snd] in *. subst tr. split; cbn [emit fst snd].
      - rewrite !flatl_app, (E_content _ _ _ _ _ _ _ C), (E_lead _ _ _ _ _ _ _ C docs V3).
        rewrite rowi_snoc, app_nil_r, <- V1, <- app_assoc. unfold piece_of. now rewrite <- (E_lev _ _ _ _ _ _ _ C).
      - now rewrite (afters_snoc o).
      - intros Ht. destruct done; cbn [app nilb]; destruct docs; cbn [app nilb]; try reflexivity;
          destruct (lead_docs _ _ _ _ _ _ _); cbn [app nilb]; try reflexivity;
          destruct (content o s i) eqn:E; try reflexivity; now apply (E_new _ _ _ _ _ _ _ C) in E.
    Qed.

    Lemma emit_all3 P0 m top s paren l : forall first done st,
      (forall pre i post, l = pre ++ i :: post -> Cond3 s paren (first && nilb pre) m top (done ++ pre) i) ->
      Inv3 P0 m top st done -> Inv3 P0 m top (emit_all o s paren first l st) (done ++ l).
    Proof.
      induction l as [|i l IH]; intros first done st C V; cbn [emit_all].
      - now rewrite app_nil_r.
      - change (done ++ i :: l) with (done ++ [i] ++ l). rewrite app_assoc. apply IH.
        + intros pre j post E. pose proof (C (i :: pre) j post ltac:(now rewrite E)) as X.
          cbn [nilb] in X. rewrite andb_false_r in X. cbn [andb]. now rewrite <- app_assoc.
        + apply emit3; [|exact V]. pose proof (C [] i l eq_refl) as X.
          cbn [nilb] in X. now rewrite andb_true_r, app_nil_r in X.
    Qed.
  End Row.

  (** ** The check of a table *)

  (** Whether a child of form [y] is one step deeper. *)
  Definition inner_sym (k : kind) (pb : bool) (y : sym) : bool :=
    match k, y with
    | (PLAIN_INSTR | BLOCK_IF_THEN | BLOCK_IF_ELSE), _ => true
    | MODULE, YNd _ => true
    | OPERAND, _ => false
    | BLOCK_IF, YNd (BLOCK_IF_THEN | BLOCK_IF_ELSE) => pb
    | _, _ => is_instr_sym y
    end.
  Definition tight_sym (y : sym) : bool :=
    match y with
    | YTk (L_PAREN | R_PAREN | INSTR_NAME) => true
    | YKw x => negb (text_eqb (T x) (T "end")) && negb (text_eqb (T x) (T "declare"))
    | _ => false
    end.
  Definition blank_sym (k : kind) (y : sym) : bool :=
    match y with
    | YTk (IDENT | REF_TYPE | UNSIGNED_INT) => true
    | YTk STRING => negb (kind_eqb k MODULE_FIELD_DATA)
    | YKw x => negb (text_eqb (T x) (T "end")) && text_eqb (T x) (T "declare")
    | YNd TYPE_USE => negb (kind_eqb k MODULE_FIELD_FUNC)
    | YNd PARAM => negb (kind_eqb k TYPE_USE)
    | YNd k' => negb (existsb (kind_eqb k') (LOCAL :: OPERAND :: BLOCK_IF_THEN :: BLOCK_IF_ELSE :: OFFSET :: ELEM_EXPR :: field_kinds ++ instr_kinds))
    | _ => false
    end.
  Definition node_is (k : kind) (y : sym) : bool := match y with YNd k' => kind_eqb k k' | _ => false end.
  Definition lead_sym (k : kind) (top : bool) (dones : list sym) (fresh : bool) (l : lead) (y : sym) : bool :=
    match l with
    | LTight => tight_sym y || fresh && negb (is_instr_sym y)
    | LSpace => blank_sym k y && negb (kind_eqb k TYPE_USE && node_is RESULT y)
    | LHard =>
        is_instr_sym y && negb (kind_eqb k OPERAND)
        || match y with YKw x => text_eqb (T x) (T "end") | YNd BLOCK_IF_ELSE => true | _ => false end
    | LSoft => kind_eqb k MODULE_FIELD_DATA && match y with YTk STRING => true | _ => false end
    | LField => nd_in field_kinds y
    | LKeyworded => nd_in [OFFSET; ELEM_EXPR] y
    | LThen => node_is BLOCK_IF_THEN y
    | LOperand => node_is OPERAND y
    | LTypeUse => kind_eqb k MODULE_FIELD_FUNC && node_is TYPE_USE y
    | LLocal => node_is LOCAL y && forallb (fun z => negb (node_is LOCAL z)) dones
    | LParam => top && kind_eqb k TYPE_USE && node_is PARAM y && forallb (fun z => negb (node_is PARAM z)) dones
    | LResult => top && node_is RESULT y && forallb (fun z => negb (node_is RESULT z)) dones
    | LIndex => top && node_is INDEX y
    | LFresh => fresh && negb (is_instr_sym y)
    end.
  Definition lone (segs : list seg) (idx : list nat) : bool :=
    short idx && forallb (fun n => is_one (nth n segs (SMany []))) idx.
  Definition check3 (k : kind) (pb top lvl : bool) (segs : list seg) (done : list nat) (s : step) (idx : list nat) : bool :=
    check2 (kind_eqb k TYPE_USE) segs done s idx
    && match s_lead s with LParam => has_lparen_seg segs || nilb done | _ => true end
    && forallb (fun y => Bool.eqb (inner_sym k pb y) lvl
                         && lead_sym k top (flat_map (at_seg segs) done) (nilb done && lone segs idx) (s_lead s) y)
               (flat_map (at_seg segs) idx).
  Fixpoint run3 (k : kind) (pb top lvl : bool) (segs : list seg) (done : list nat) (l : list step) : option (list nat) :=
    match l with
    | [] => Some done
    | s :: r =>
        match choose_sym s segs with
        | Some idx => if check3 k pb top lvl segs done s idx then run3 k pb top lvl segs (done ++ idx) r else None
        | None => None
        end
    end.
  Fixpoint parts3 (k : kind) (pb nest : bool) (segs : list seg) (done : list nat) (l : list part) : option (list nat) :=
    match l with
    | [] => Some done
    | One s :: r =>
        match run3 k pb true nest segs done [s] with Some d => parts3 k pb nest segs d r | None => None end
    | Nested f ss :: r =>
        if nest then None else
        match run3 k pb false (negb f || pb) segs done ss with
        | Some d =>
            if any_one segs done || any_one segs d && (negb f || pb) then parts3 k pb nest segs d r else None
        | None => None
        end
    end.
  Definition no_lparen (segs : list seg) : bool :=
    forallb (fun y => negb (is_lparen_sym y)) (flat_map seg_syms segs).
  Definition form3 (k : kind) (l : list part) (c : closing) (nest : bool) (segs : list seg) : bool :=
    (has_lparen_seg segs || no_lparen segs)
    && match parts3 k (has_lparen_seg segs) nest segs [] (l ++ closing_parts c) with
       | Some d => if list_eq_dec Nat.eq_dec d (List.seq 0 (length segs)) then true else false
       | None => false
       end
    && match c with
       | CParen => match choose_sym close_step segs with Some [_] => true | _ => false end
       | _ => true
       end.
  Definition kind_ok3 (k : kind) : bool :=
    match shape_of k, alts (ordinary k) with
    | Some (Parts l c nest), Some a => forallb (form3 k l c nest) a
    | _, _ => false
    end.

  Lemma kinds_ok3 : forallb kind_ok3 (TYPE_USE :: part_kinds) = true.
  Proof. vm_compute. reflexivity. Qed.

  Lemma instr_sym_eq y g : SymM y g -> is_instr_sym y = instruction g.
  Proof.
    destruct y as [x|k|k], g as [k' t|k' cs]; cbn [SymM]; try contradiction; try reflexivity. intros <-.
    destruct k; reflexivity.
  Qed.
  Lemma inner_sym_eq k pb y g : SymM y g -> inner_sym k pb y = inner k pb g.
  Proof.
    intros H. pose proof (instr_sym_eq _ _ H) as E.
    destruct y as [x|k1|k1], g as [k' t|k' cs]; cbn [SymM] in H; try contradiction.
    - destruct k; reflexivity || exact E.
    - subst k'. destruct k; reflexivity || exact E.
    - subst k'. destruct k; try (reflexivity || exact E). destruct k1; reflexivity || exact E.
  Qed.
  Lemma has_instr kk cs : has (SNode instr_kinds) (Node kk cs) = existsb instruction cs.
  Proof.
    cbn [has]. induction cs as [|c cs IH]; [reflexivity|]. cbn [existsb]. rewrite IH. f_equal.
    destruct c as [|k c]; [reflexivity|]. destruct k; reflexivity.
  Qed.

  Lemma lead3 k top dones fresh l y i before docs first paren m :
    SymM y (i_el i) -> lead_sym k top dones fresh l y = true ->
    (top = true -> nilb docs = nilb before) ->
    (before = [] -> is_instr_sym y = true \/ quiet l = true) ->
    (fresh = true -> before = []) ->
    (l = LLocal -> first = negb (node_in LOCAL before)) -> (l = LParam -> first = negb (node_in PARAM before)) ->
    (first = false -> before <> []) ->
    flatl m (lead_docs o l paren first docs [] i) = gap_pieces w m (gap_before k before (i_el i)).
  Proof.
    intros Hm Hl Ht Hq Hf Hloc Hpar Hfst. pose proof (instr_sym_eq _ _ Hm) as Ei.
    assert (Tight_ : before = [] -> instruction (i_el i) = false -> gap_before k before (i_el i) = Tight).
    { intros -> E. unfold gap_before. now rewrite E. }
    assert (Ne : quiet l = false -> is_instr_sym y = false -> exists b bs, before = b :: bs).
    { intros Q N. destruct before as [|b bs]; [|eauto]. destruct (Hq eq_refl); congruence. }
    destruct l; cbn [lead_docs or_trivias nilb andb lead_sym] in Hl |- *.
    - (* LTight *)
      apply orb_prop in Hl as [Hl|Hl].
      + assert (G : gap_before k before (i_el i) = Tight); [|now rewrite G].
        destruct y as [x|k1|k1]; try discriminate Hl; destruct (i_el i) as [k' t|k' cs]; cbn [SymM] in Hm; try contradiction.
        * destruct Hm as [-> ->]. cbn [tight_sym] in Hl. apply andb_prop in Hl as [H1 H2].
          apply negb_true_iff in H1, H2. unfold gap_before. cbn [instruction]. rewrite H1, H2. destruct before; reflexivity.
        * subst k'. destruct k1; try discriminate Hl; destruct before; reflexivity.
      + apply andb_prop in Hl as [H1 H2]. apply negb_true_iff in H2. rewrite Ei in H2. now rewrite (Tight_ (Hf H1) H2).
    - (* LSpace *)
      apply andb_prop in Hl as [Hl _].
      assert (N : is_instr_sym y = false).
      { destruct y as [x|k1|k1]; try reflexivity. destruct k1; try reflexivity; discriminate Hl. }
      destruct (Ne eq_refl N) as (b & bs & ->).
      assert (G : gap_before k (b :: bs) (i_el i) = OneBlank); [|rewrite G; reflexivity].
      destruct y as [x|k1|k1]; try discriminate Hl; destruct (i_el i) as [k' t|k' cs]; cbn [SymM] in Hm; try contradiction.
      + destruct Hm as [-> ->]. cbn [blank_sym] in Hl. apply andb_prop in Hl as [H1 H2].
        apply negb_true_iff in H1. unfold gap_before. cbn [instruction]. rewrite H1, H2. reflexivity.
      + subst k'. destruct k1; try discriminate Hl; try reflexivity.
        cbn [blank_sym] in Hl. apply negb_true_iff in Hl. unfold gap_before. cbn [instruction]. now rewrite Hl.
      + subst k'. destruct k1; try discriminate Hl; try reflexivity.
        all: cbn [blank_sym] in Hl; apply negb_true_iff in Hl; unfold gap_before; cbn [instruction]; now rewrite Hl.
    - (* LHard *)
      assert (G : gap_before k before (i_el i) = NewLine false); [|rewrite G; cbn; now rewrite Nat.add_0_r].
      apply orb_prop in Hl as [Hl|Hl].
      + apply andb_prop in Hl as [H1 H2]. rewrite Ei in H1. apply negb_true_iff in H2. unfold gap_before. now rewrite H1, H2.
      + assert (N : is_instr_sym y = false).
        { destruct y as [x|k1|k1]; try reflexivity. destruct k1; try reflexivity; discriminate Hl. }
        destruct (Ne eq_refl N) as (b & bs & ->).
        destruct y as [x|k1|k1]; try discriminate Hl; destruct (i_el i) as [k' t|k' cs]; cbn [SymM] in Hm; try contradiction.
        * destruct Hm as [-> ->]. unfold gap_before. cbn [instruction]. now rewrite Hl.
        * subst k'. destruct k1; try discriminate Hl. reflexivity.
    - (* LSoft *)
      apply andb_prop in Hl as [H1 H2]. apply kind_eqb_eq in H1. subst k. destruct y as [x|k1|k1]; try discriminate H2.
      destruct k1; try discriminate H2. destruct (Ne eq_refl eq_refl) as (b & bs & ->).
      destruct (i_el i) as [k' t|k' cs]; cbn [SymM] in Hm; try contradiction. subst k'. cbn. now rewrite Nat.add_0_r.
    - (* LField *)
      destruct y as [x|k1|k1]; try discriminate Hl.
      destruct (i_el i) as [k' t|k' cs]; cbn [SymM] in Hm; try contradiction. subst k'.
      assert (N : is_instr_sym (YNd k1) = false) by (destruct k1; try reflexivity; discriminate Hl).
      destruct (Ne eq_refl N) as (b & bs & ->).
      assert (G : gap_before k (b :: bs) (Node k1 cs) = NewLine false) by (destruct k1; try discriminate Hl; reflexivity).
      rewrite G. cbn. now rewrite Nat.add_0_r.
    - (* LKeyworded *)
      destruct y as [x|k1|k1]; try discriminate Hl.
      destruct (i_el i) as [k' t|k' cs]; cbn [SymM] in Hm; try contradiction. subst k'.
      assert (N : is_instr_sym (YNd k1) = false) by (destruct k1; try reflexivity; discriminate Hl).
      destruct (Ne eq_refl N) as (b & bs & ->).
      assert (G : gap_before k (b :: bs) (Node k1 cs) = if token_in KEYWORD cs then NewLine true else Tight)
        by (destruct k1; try discriminate Hl; reflexivity).
      rewrite G. change (has (STok KEYWORD) (Node k1 cs)) with (token_in KEYWORD cs). destruct (token_in KEYWORD cs); reflexivity.
    - (* LThen *)
      destruct y as [x|k1|k1]; try discriminate Hl. cbn [node_is] in Hl. apply kind_eqb_eq in Hl. subst k1.
      destruct (i_el i) as [k' t|k' cs]; cbn [SymM] in Hm; try contradiction. subst k'.
      destruct (Ne eq_refl eq_refl) as (b & bs & ->).
      change (has (STok L_PAREN) (Node BLOCK_IF_THEN cs)) with (token_in L_PAREN cs). unfold gap_before. cbn [instruction].
      destruct (token_in L_PAREN cs); cbn; rewrite ?Nat.add_0_r; reflexivity.
    - (* LOperand *)
      destruct y as [x|k1|k1]; try discriminate Hl. cbn [node_is] in Hl. apply kind_eqb_eq in Hl. subst k1.
      destruct (i_el i) as [k' t|k' cs]; cbn [SymM] in Hm; try contradiction. subst k'.
      destruct (Ne eq_refl eq_refl) as (b & bs & ->). rewrite has_instr. unfold gap_before. cbn [instruction].
      destruct (existsb instruction cs); cbn; rewrite ?Nat.add_0_r; reflexivity.
    - (* LTypeUse *)
      apply andb_prop in Hl as [H1 Hl]. apply kind_eqb_eq in H1. subst k.
      destruct y as [x|k1|k1]; try discriminate Hl. cbn [node_is] in Hl. apply kind_eqb_eq in Hl. subst k1.
      destruct (i_el i) as [k' t|k' cs]; cbn [SymM] in Hm; try contradiction. subst k'.
      destruct (Ne eq_refl eq_refl) as (b & bs & ->).
      change (has (STok KEYWORD) (Node TYPE_USE cs)) with (token_in KEYWORD cs). unfold gap_before. cbn [instruction].
      replace (kind_eqb MODULE_FIELD_FUNC MODULE_FIELD_FUNC) with true by reflexivity.
      destruct (token_in KEYWORD cs); reflexivity.
    - (* LLocal *)
      apply andb_prop in Hl as [Hl _].
      destruct y as [x|k1|k1]; try discriminate Hl. cbn [node_is] in Hl. apply kind_eqb_eq in Hl. subst k1.
      destruct (i_el i) as [k' t|k' cs]; cbn [SymM] in Hm; try contradiction. subst k'.
      destruct (Ne eq_refl eq_refl) as (b & bs & ->). rewrite (Hloc eq_refl). unfold gap_before. cbn [instruction].
      destruct (node_in LOCAL (b :: bs)); reflexivity.
    - (* LParam *)
      apply andb_prop in Hl as [Hl _]. apply andb_prop in Hl as [Hl Hy]. apply andb_prop in Hl as [-> Hk].
      apply kind_eqb_eq in Hk. subst k. rewrite (Ht eq_refl).
      destruct y as [x|k1|k1]; try discriminate Hy. cbn [node_is] in Hy. apply kind_eqb_eq in Hy. subst k1.
      destruct (i_el i) as [k' t|k' cs]; cbn [SymM] in Hm; try contradiction. subst k'.
      destruct before as [|b bs].
      + rewrite (Hpar eq_refl). cbn. destruct paren; reflexivity.
      + cbn [nilb negb]. rewrite (Hpar eq_refl). unfold gap_before. cbn [instruction].
        replace (kind_eqb TYPE_USE TYPE_USE) with true by reflexivity. cbn [andb].
        destruct (node_in PARAM (b :: bs)); reflexivity.
    - (* LResult *)
      apply andb_prop in Hl as [Hl _]. apply andb_prop in Hl as [-> Hy]. rewrite (Ht eq_refl).
      destruct y as [x|k1|k1]; try discriminate Hy. cbn [node_is] in Hy. apply kind_eqb_eq in Hy. subst k1.
      destruct (i_el i) as [k' t|k' cs]; cbn [SymM] in Hm; try contradiction. subst k'.
      destruct before as [|b bs].
      + destruct first; [|now destruct (Hfst eq_refl)]. cbn. destruct paren; reflexivity.
      + cbn [nilb negb]. destruct first; reflexivity.
    - (* LIndex *)
      apply andb_prop in Hl as [-> Hy]. rewrite (Ht eq_refl).
      destruct y as [x|k1|k1]; try discriminate Hy. cbn [node_is] in Hy. apply kind_eqb_eq in Hy. subst k1.
      destruct (i_el i) as [k' t|k' cs]; cbn [SymM] in Hm; try contradiction. subst k'.
      destruct before as [|b bs]; reflexivity.
    - (* LFresh *)
      apply andb_prop in Hl as [H1 H2]. apply negb_true_iff in H2. rewrite Ei in H2. now rewrite (Tight_ (Hf H1) H2).
  Qed.

  Lemma deep_kind g : deep g = true -> exists k cs, g = Node k cs /\ In k [OFFSET; ELEM_EXPR] /\ token_in KEYWORD cs = true.
  Proof.
    destruct g as [k t|k cs]; [discriminate|]. intros H. exists k, cs. split; [reflexivity|].
    destruct k; try discriminate H; cbn; auto.
  Qed.

  (** The conditions on a step. *)
  Record Cond4 (k : kind) (s : step) (paren first : bool) (done : list item) (tr : list doc) (i : item) : Prop :=
    { F_lit : forall x, s_lit s = Some x -> exists k, i_el i = Tok k (T x)
    ; F_sig : significant (i_el i) = true
    ; F_kind : s_lead s = LKeyworded -> exists k cs, i_el i = Node k cs /\ (k = ELEM_EXPR \/ k = OFFSET)
    ; F_lead :
        match s_lead s with
        | LParam => first = true -> paren = true \/ tr = []
        | LResult => first = true -> paren = true \/ tr = [] \/ k = TYPE_USE
        | LFresh => tr = []
        | _ => True
        end
    ; F_first : done = [] -> inst i \/ quiet (s_lead s) = true /\ first = true }.

  Lemma conds4 k segs parts done s idx paren :
    Forall2 (SegM i_el) segs parts -> check2 (kind_eqb k TYPE_USE) segs done s idx = true ->
    match s_lead s with LParam => has_lparen_seg segs || nilb done | _ => true end = true ->
    (has_lparen_seg segs = true -> paren = true) ->
    forall pre i post, cat parts idx = pre ++ i :: post -> ItemOK o i -> significant (i_el i) = true ->
    Cond4 k s paren (nilb pre) (cat parts done ++ pre) (afters o [] (cat parts done ++ pre)) i.
  Proof.
    intros HS HC HLp Hp pre i post E Hi Hsig. unfold check2 in HC.
    apply andb_prop in HC as [HC C5]. apply andb_prop in HC as [HC C4]. apply andb_prop in HC as [HC C3].
    apply andb_prop in HC as [C1 C2].
    assert (Hin : In i (cat parts idx)) by (rewrite E; apply in_elt).
    destruct (cat_in _ _ _ Hin) as (n & Hn & Hni). destruct (seg_in _ _ _ _ HS Hni) as (y & Hy & Hm).
    set (ys := flat_map (at_seg segs) idx) in *.
    assert (Hys : In y ys) by (apply in_flat_map; eauto).
    assert (NoNil : nilb idx = true -> False).
    { destruct idx; [|discriminate]. intros _. destruct Hn. }
    assert (Nil : nilb done = true -> cat parts done = []) by (destruct done; [reflexivity|discriminate]).
    assert (PR : has_lparen_seg segs || nilb done = true -> nilb pre = true ->
      paren = true \/ afters o [] (cat parts done ++ pre) = []).
    { intros X Y. destruct pre; [|discriminate]. rewrite app_nil_r. apply orb_prop in X as [X|X]; [left; auto|].
      right. now rewrite (Nil X). }
    split.
    - intros x Ex. rewrite Ex in C2. rewrite forallb_forall in C2. specialize (C2 y Hys).
      destruct y as [z|k1|k1]; cbn [lit_sym] in C2; try discriminate.
      + apply text_eqb_eq in C2. destruct (i_el i) as [k1 t|]; [|contradiction]. destruct Hm as [-> ->].
        exists KEYWORD. now rewrite C2.
      + destruct (i_el i) as [k' t|] eqn:Ei; [|contradiction]. cbn [SymM] in Hm. subst k'.
        destruct (IO_par _ _ Hi _ _ Ei) as [A B].
        destruct k1; try discriminate; apply text_eqb_eq in C2; eexists; [rewrite (A eq_refl), C2|rewrite (B eq_refl), C2]; reflexivity.
    - exact Hsig.
    - intros Es. rewrite Es in C3. rewrite forallb_forall in C3. specialize (C3 y Hys). destruct y as [z|k1|k1]; try discriminate.
      destruct (i_el i) as [k' t|k' cs] eqn:Ei; cbn [SymM] in Hm; [contradiction|]. subst k'. exists k1, cs. split; [reflexivity|].
      unfold nd_in in C3. apply existsb_exists in C3 as (x & Hx & Ex). apply kind_eqb_eq in Ex. subst x.
      destruct Hx as [<-|[<-|[]]]; auto.
    - destruct (s_lead s); try exact I; try (now apply PR).
      + intros Y. rewrite <- orb_assoc in C4. apply orb_prop in C4 as [C4|C4].
        * right. right. now apply kind_eqb_eq.
        * destruct (PR C4 Y); auto.
      + apply orb_prop in C4 as [C4|C4]; [now apply NoNil in C4|].
        apply andb_prop in C4 as [C4 C6]. apply andb_prop in C4 as [C4a C4b].
        assert (pre = []) as ->.
        { destruct (short_cat _ _ _ HS C4a C4b) as [Z|(j & Z)]; rewrite Z in E.
          - destruct pre; discriminate.
          - destruct pre as [|a [|b pre]]; [reflexivity|discriminate|discriminate]. }
        now rewrite (Nil C6).
    - intros Z. apply orb_prop in C5 as [C5|C5]; [apply orb_prop in C5 as [C5|C5]; [apply orb_prop in C5 as [C5|C5]|]|].
      + now apply NoNil in C5.
      + exfalso. apply (any_one_cat _ _ _ HS C5). now apply app_eq_nil in Z.
      + right. split; [exact C5|]. apply app_eq_nil in Z as [_ ->]. reflexivity.
      + left. rewrite forallb_forall in C5. specialize (C5 y Hys). destruct y as [z|k1|k1]; try discriminate.
        destruct (i_el i) as [k' t|k' cs] eqn:Ei; cbn [SymM] in Hm; [contradiction|]. subst k'. exists k1, cs. auto.
  Qed.

  Lemma content3 k0 s paren first done tr i m : ItemOK o i -> Cond4 k0 s paren first done tr i ->
    (s_lead s <> LKeyworded -> deep (i_el i) = false) ->
    flatl m (content o s i) = flat (m + mo (deep (i_el i))) (i_doc i) /\ content o s i <> [].
  Proof.
    intros H C Hd. assert (A : forall b, b = false -> mo b = 0) by (intros b ->; reflexivity).
    unfold content. destruct (s_lit s) as [x|] eqn:El.
    - destruct (F_lit _ _ _ _ _ _ _ C x El) as (k & Ek).
      destruct (IO_tok _ _ H k (T x) Ek (F_sig _ _ _ _ _ _ _ C)) as (-> & _). rewrite Ek.
      cbn [deep]. rewrite (A false eq_refl), Nat.add_0_r, flatl_one. split; [reflexivity|discriminate].
    - destruct (s_lead s) eqn:Es.
      all: try (rewrite (A _ (Hd ltac:(discriminate))), Nat.add_0_r, ?(IO_prev _ _ H), flatl_one; split; [reflexivity|discriminate]).
      destruct (F_kind _ _ _ _ _ _ _ C Es) as (k & cs & Ek & Hk). rewrite Ek.
      assert (E : deep (Node k cs) = has (STok KEYWORD) (Node k cs)) by (destruct Hk as [->| ->]; reflexivity).
      rewrite E. split; [|discriminate]. rewrite flatl_one. destruct (has (STok KEYWORD) (Node k cs)); cbn [flat more]; [reflexivity|].
      now rewrite Nat.add_0_r.
  Qed.

  Lemma node_in_rev k l : node_in k (rev l) = node_in k l.
  Proof.
    unfold node_in. induction l as [|c l IH]; [reflexivity|]. cbn [rev existsb]. rewrite existsb_app, IH. cbn [existsb].
    rewrite orb_false_r. apply orb_comm.
  Qed.
  Lemma node_is_el k y g : SymM y g -> node_is k y = match g with Node k' _ => kind_eqb k k' | Tok _ _ => false end.
  Proof. destruct y as [x|k1|k1], g as [k' t|k' cs]; cbn [SymM]; try contradiction; try reflexivity. now intros <-. Qed.

  Lemma conds3 k pb n lvl top segs parts done s idx paren :
    Forall2 (SegM i_el) segs parts -> check3 k pb top lvl segs done s idx = true ->
    paren = pb -> has_lparen_seg segs = pb ->
    forall pre i post, cat parts idx = pre ++ i :: post -> ItemOK o i -> significant (i_el i) = true ->
    Cond3 k pb n s paren (nilb pre) (n + mo lvl) top (cat parts done ++ pre) i.
  Proof.
    intros HS HC Hp Hpb pre i post E Hi Hsig. unfold check3 in HC. apply andb_prop in HC as [HC2 HC].
    apply andb_prop in HC2 as [HC2 HLp].
    pose proof (conds4 k _ _ _ _ _ paren HS HC2 HLp ltac:(congruence) pre i post E Hi Hsig) as C2.
    set (ys := flat_map (at_seg segs) idx) in *. rewrite forallb_forall in HC.
    assert (Sy : forall j, In j (cat parts idx) -> exists y, In y ys /\ SymM y (i_el j)).
    { intros j Hj. destruct (cat_in _ _ _ Hj) as (m & Hm & Hj2). destruct (seg_in _ _ _ _ HS Hj2) as (y & Hy & Hm2).
      exists y. split; [|exact Hm2]. apply in_flat_map. eauto. }
    destruct (Sy i) as (y & Hys & Hm); [rewrite E; apply in_elt|].
    pose proof (HC y Hys) as Hy. apply andb_prop in Hy as [Hy1 Hy2]. apply Bool.eqb_prop in Hy1.
    set (D := cat parts done ++ pre) in *.
    assert (Hin : forall kk, lead_sym k top (flat_map (at_seg segs) done) (nilb done && lone segs idx) (s_lead s) y = true ->
       (forall z, In z ys -> node_is kk z = true) ->
       (forall z, In z (flat_map (at_seg segs) done) -> node_is kk z = false) ->
       nilb pre = negb (node_in kk (rev (map i_el D)))).
    { intros kk _ H1 H2. rewrite node_in_rev. unfold D. rewrite map_app. unfold node_in. rewrite existsb_app.
      destruct pre as [|j pre]; cbn [nilb map existsb].
      - rewrite orb_false_r. symmetry. apply negb_true_iff. apply not_true_iff_false. intros X.
        apply existsb_exists in X as (g & Hg & Hg2). apply in_map_iff in Hg as (j & <- & Hj).
        destruct (cat_in _ _ _ Hj) as (m & Hmm & Hj2). destruct (seg_in _ _ _ _ HS Hj2) as (z & Hz & Hz2).
        specialize (H2 z ltac:(apply in_flat_map; eauto)). rewrite (node_is_el kk _ _ Hz2) in H2. congruence.
      - destruct (Sy j) as (z & Hz & Hz2); [rewrite E; now left|]. specialize (H1 z Hz).
        rewrite (node_is_el kk _ _ Hz2) in H1. rewrite H1. rewrite orb_true_r. reflexivity. }
    assert (All : forall z, In z ys -> lead_sym k top (flat_map (at_seg segs) done) (nilb done && lone segs idx) (s_lead s) z = true).
    { intros z Hz. apply HC in Hz. now apply andb_prop in Hz as [_ Hz]. }
    assert (Elev : n + mo lvl = lev k pb n (i_el i)).
    { unfold lev. now rewrite <- (inner_sym_eq k pb _ _ Hm), Hy1. }
    assert (Hd : s_lead s <> LKeyworded -> deep (i_el i) = false).
    { intros Hne. apply not_true_iff_false. intros X. apply deep_kind in X as (k1 & cs & Ek & Hk & _).
      unfold check2 in HC2. apply andb_prop in HC2 as [HC2 _]. apply andb_prop in HC2 as [HC2 _]. apply andb_prop in HC2 as [_ C3].
      fold ys in C3. rewrite Ek in Hm. destruct y as [x|k2|k2]; cbn [SymM] in Hm; try contradiction. subst k2.
      destruct (s_lead s); try congruence; rewrite forallb_forall in C3; specialize (C3 _ Hys);
        destruct Hk as [<-|[<-|[]]]; discriminate. }
    destruct (content3 k s paren (nilb pre) D _ i (n + mo lvl) Hi C2 Hd) as [Hc1 Hc2].
    split; [exact Elev| |exact Hc1|exact Hc2].
    intros docs Hdocs. pose proof (F_lead _ _ _ _ _ _ _ C2) as DL.
    destruct (nilb (afters o [] D)) eqn:En.
    - destruct (afters o [] D); [|discriminate].
      eapply lead3; [exact Hm|exact Hy2| | | | | |].
      + intros Z. rewrite (Hdocs Z). destruct D as [|d D']; [reflexivity|]. cbn [map rev nilb].
        destruct (rev (map i_el D') ++ [i_el d]) eqn:X; [|reflexivity]. apply app_eq_nil in X as [_ X]. discriminate.
      + intros Z. assert (D = []) as Z0.
        { destruct D as [|d D']; [reflexivity|]. cbn [map rev] in Z. apply app_eq_nil in Z as [_ Z]. discriminate. }
        destruct (F_first _ _ _ _ _ _ _ C2 Z0) as [(k1 & cs & Ek & Hk)|[X _]]; [left|now right].
        rewrite Ek in Hm. destruct y as [x|k2|k2]; cbn [SymM] in Hm; try contradiction. subst k2. exact Hk.
      + intros Z. apply andb_prop in Z as [Z1 Z2]. unfold lone in Z2. apply andb_prop in Z2 as [Z2 Z3].
        destruct done; [|discriminate]. unfold D.
        assert (pre = []) as ->; [|reflexivity].
        destruct (short_cat _ _ _ HS Z2 Z3) as [X|(j & X)]; rewrite X in E.
        * destruct pre; discriminate.
        * destruct pre as [|a [|b pre]]; [reflexivity|discriminate|discriminate].
      + intros Z. rewrite Z in All, Hy2. apply Hin; [now rewrite Z| |].
        * intros z Hz. specialize (All z Hz). cbn [lead_sym] in All. now apply andb_prop in All as [All _].
        * intros z Hz. cbn [lead_sym] in Hy2. apply andb_prop in Hy2 as [_ X]. rewrite forallb_forall in X.
          apply negb_true_iff. now apply X.
      + intros Z. rewrite Z in All, Hy2. apply Hin; [now rewrite Z| |].
        * intros z Hz. specialize (All z Hz). cbn [lead_sym] in All. apply andb_prop in All as [All _]. now apply andb_prop in All as [_ All].
        * intros z Hz. cbn [lead_sym] in Hy2. apply andb_prop in Hy2 as [_ X]. rewrite forallb_forall in X.
          apply negb_true_iff. now apply X.
      + unfold D. intros Z X. rewrite map_app, rev_app_distr in X. apply app_eq_nil in X as [X _].
        destruct pre as [|j pre]; [discriminate|]. cbn [map rev] in X. apply app_eq_nil in X as [_ X]. discriminate.
    - assert (Ht : afters o [] D <> []) by (intros Z; rewrite Z in En; discriminate).
      assert (Or : forall d, or_trivias d (afters o [] D) = afters o [] D).
      { intros d. unfold or_trivias. now rewrite En. }
      assert (NR : s_lead s <> LResult -> dropped_before k pb (rev (map i_el D)) (i_el i) = false).
      { intros Hne. apply not_true_iff_false. intros X. unfold dropped_before in X.
        apply andb_prop in X as [X X2]. apply andb_prop in X as [X _]. apply kind_eqb_eq in X. subst k.
        assert (Ey : y = YNd RESULT).
        { destruct (i_el i) as [|k1 cs]; [discriminate|]. destruct k1; try discriminate.
          destruct y as [x|k2|k2]; cbn [SymM] in Hm; try contradiction. now rewrite Hm. }
        subst y. destruct (s_lead s); cbn in Hy2; rewrite ?andb_false_r, ?orb_false_r in Hy2; try discriminate; try congruence.
        all: apply andb_prop in Hy2 as [Z _]; unfold lone in Z; apply andb_prop in Z as [Z1 Z2]; apply andb_prop in Z2 as [Z2 Z3];
          destruct done; [|discriminate]; apply Ht; unfold D;
          assert (pre = []) as ->; [|reflexivity];
          destruct (short_cat _ _ _ HS Z2 Z3) as [X'|(j & X')]; rewrite X' in E;
          [destruct pre; discriminate|destruct pre as [|? [|? ?]]; [reflexivity|discriminate|discriminate]]. }
      destruct (s_lead s) eqn:Es; try (rewrite NR by discriminate); cbn [lead_docs]; rewrite ?Or, ?En; cbn [andb]; try reflexivity.
      + destruct (nilb pre); [|reflexivity]. destruct (DL eq_refl) as [->|X]; [reflexivity|contradiction].
      + assert (Hb : nilb pre = negb (node_in RESULT (rev (map i_el D)))).
        { apply Hin; [exact Hy2| |].
          - intros z Hz. specialize (All z Hz). cbn [lead_sym] in All. apply andb_prop in All as [All _]. now apply andb_prop in All as [_ All].
          - intros z Hz. cbn [lead_sym] in Hy2. apply andb_prop in Hy2 as [_ X]. rewrite forallb_forall in X.
            apply negb_true_iff. now apply X. }
        unfold dropped_before. rewrite <- Hb.
        destruct (nilb pre) eqn:Ep; [|destruct (i_el i) as [|[]]; rewrite ?andb_false_r; reflexivity].
        cbn [lead_sym] in Hy2. apply andb_prop in Hy2 as [Hy2 _]. apply andb_prop in Hy2 as [_ Hy2].
        destruct y as [x|k2|k2]; try discriminate Hy2. cbn [node_is] in Hy2. apply kind_eqb_eq in Hy2. subst k2.
        destruct (i_el i) as [k' t|k' cs]; cbn [SymM] in Hm; try contradiction. subst k'.
        rewrite andb_true_r. rewrite <- Hp. destruct (DL eq_refl) as [->|[X|X]]; [|contradiction|].
        * now rewrite andb_false_r.
        * subst k. destruct paren; reflexivity.
      + contradiction.
  Qed.

  Section Run.
    Variables (k : kind) (n : nat) (its : list item) (segs : list seg) (parts : list (list item)).
    Let E := filter (fun i => significant (i_el i)) its.
    Hypothesis HE : E = concat parts.
    Hypothesis HS : Forall2 (SegM i_el) segs parts.
    Hypothesis HI : Forall (ItemOK o) E.
    Let pb := has_lparen_seg segs.
    Notation inv := (Inv3 k pb n).
    Hypothesis Hpb : has_item (STok L_PAREN) its = pb.

    Lemma run_step3 P0 top lvl s done idx st :
      choose_sym s segs = Some idx -> check3 k pb top lvl segs done s idx = true -> (forall n, In n done -> n < length parts) ->
      inv P0 (n + mo lvl) top st (cat parts done) -> inv P0 (n + mo lvl) top (run_step o its s st) (cat parts (done ++ idx)).
    Proof.
      intros Hc Hk Hlt V. unfold run_step.
      assert (Hsig : sel_sig (s_sel s) = true).
      { unfold check3 in Hk. apply andb_prop in Hk as [Hk _]. unfold check2 in Hk.
        repeat (apply andb_prop in Hk as [Hk _]). exact Hk. }
      rewrite (choose_sig its _ Hsig). fold E. rewrite HE, (choose_sym_ok _ _ _ _ HS Hc), cat_app.
      apply emit_all3; [|exact V].
      intros pre i post Ei. cbn [andb].
      assert (Hin : In i (cat parts idx)) by (rewrite Ei; apply in_elt).
      destruct (item_in o its parts HE HI _ _ Hin) as [Ho Hs].
      eapply conds3; eauto.
    Qed.

    Lemma run_steps3 P0 top lvl l : forall done d st, run3 k pb top lvl segs done l = Some d ->
      (forall n, In n done -> n < length parts) ->
      inv P0 (n + mo lvl) top st (cat parts done) ->
      inv P0 (n + mo lvl) top (run_steps o its l st) (cat parts d) /\ (forall n, In n d -> n < length parts).
    Proof.
      induction l as [|s l IH]; intros done d st Hr Hlt V.
      - injection Hr as <-. auto.
      - cbn [run3] in Hr. destruct (choose_sym s segs) as [idx|] eqn:Ec0; [|discriminate].
        destruct (check3 k pb top lvl segs done s idx) eqn:Ek; [|discriminate].
        unfold run_steps. cbn [fold_left]. apply (IH (done ++ idx) d); [exact Hr| |].
        + intros m Hn. apply in_app_or in Hn as [Hn|Hn]; [auto|]. eapply idx_lt; eauto.
        + now apply run_step3.
    Qed.

    Lemma run_parts3 nest l : forall done d st, parts3 k pb nest segs done l = Some d -> (forall n, In n done -> n < length parts) ->
      inv [] (n + mo nest) true st (cat parts done) -> inv [] (n + mo nest) true (run_parts o its l st) (cat parts d).
    Proof.
      induction l as [|p l IH]; intros done d st Hr Hlt V.
      - injection Hr as <-. exact V.
      - unfold run_parts. cbn [fold_left]. destruct p as [s|f ss]; cbn [parts3] in Hr.
        + destruct (run3 k pb true nest segs done [s]) as [d1|] eqn:E1; [|discriminate].
          destruct (run_steps3 [] true nest [s] done d1 st E1 Hlt V) as [W1 W2]. apply (IH d1 d); auto.
        + destruct nest; [discriminate|].
          destruct (run3 k pb false (negb f || pb) segs done ss) as [d1|] eqn:E1; [|discriminate].
          destruct (any_one segs done || any_one segs d1 && (negb f || pb)) eqn:Ea; [|discriminate]. destruct st as [docs tr].
          destruct V as [V1 V2 V3]. cbn [fst snd app] in *.
          assert (V' : inv (flatl (n + mo false) docs) (n + mo (negb f || pb)) false ([], tr) (cat parts done)).
          { split; cbn [fst snd]; auto; [|discriminate]. change (flatl (n + mo (negb f || pb)) []) with (@nil lpiece). now rewrite app_nil_r. }
          destruct (run_steps3 _ false (negb f || pb) ss done d1 ([], tr) E1 Hlt V') as [W1 W2]. apply (IH d1 d); auto.
          cbn [run_part]. rewrite Hpb. destruct (run_steps o its ss ([], tr)) as [inn tr'].
          destruct W1 as [X1 X2 X3]. cbn [fst snd app] in *.
          assert (Nd : nilb (docs ++ (if negb f || pb then [DNest w (DList inn)] else inn)) = nilb (cat parts d1)).
          { apply orb_prop in Ea as [Ea|Ea].
            - pose proof (any_one_cat _ _ _ HS Ea) as N0.
              assert (N1 : cat parts d1 <> []).
              { clear -E1 N0. revert done E1 N0. induction ss as [|s ss IHs]; intros done E1 N0; cbn [run3] in E1.
                - injection E1 as <-. exact N0.
                - destruct (choose_sym s segs) as [idx|]; [|discriminate].
                  destruct (check3 k pb false (negb f || pb) segs done s idx); [|discriminate].
                  apply (IHs _ E1). rewrite cat_app. intros Z. apply app_eq_nil in Z as [Z _]. contradiction. }
              specialize (V3 eq_refl). destruct docs; [destruct (cat parts done); [contradiction|discriminate]|].
              destruct (cat parts d1); [contradiction|reflexivity].
            - apply andb_prop in Ea as [Ea ->]. pose proof (any_one_cat _ _ _ HS Ea) as N1.
              destruct (cat parts d1); [contradiction|]. destruct docs; reflexivity. }
          destruct (negb f || pb); (split; cbn [fst snd app]; [|exact X2|intros _; exact Nd]).
          * rewrite flatl_app, flatl_one. cbn [flat more]. rewrite Nat.add_0_r. cbn [more] in X1. rewrite Nat.add_0_r in X1. exact X1.
          * rewrite flatl_app. exact X1.
    Qed.

    Lemma form_lays l c nest g : form3 k l c nest segs = true -> (c = CAppend -> afters o [] E = []) ->
      flat n (shape_doc o g its (Parts l c nest)) = rowi k pb n [] [] E.
    Proof.
      intros H Ha. unfold form3 in H. fold pb in H. apply andb_prop in H as [H H2]. apply andb_prop in H as [_ H1].
      destruct (parts3 k pb nest segs [] (l ++ closing_parts c)) as [d|] eqn:Er; [|discriminate].
      destruct (list_eq_dec Nat.eq_dec d (List.seq 0 (length segs))) as [->|]; [|discriminate].
      assert (V0 : inv [] (n + mo nest) true ([], []) (cat parts [])) by (split; reflexivity).
      pose proof (run_parts3 _ _ _ _ _ Er ltac:(intros ? []) V0) as V. clear V0.
      assert (Len : length segs = length parts) by (clear -HS; induction HS; cbn [length]; auto).
      rewrite Len, cat_all, <- HE in V.
      assert (Fin : forall docs tr, inv [] (n + mo nest) true (docs, tr) E ->
        flat n (if nest then DNest w (DList docs) else DList docs) = rowi k pb n [] [] E).
      { intros docs tr [X1 _ _]. cbn [fst app] in X1. destruct nest; cbn [flat more] in *; rewrite <- X1; [reflexivity|].
        now rewrite Nat.add_0_r. }
      cbn [shape_doc].
      unfold run_parts in V |- *. rewrite fold_left_app in V.
      destruct (fold_left (fun st p => run_part o its p st) l ([], [])) as [docs tr].
      destruct c; cbn [closing_parts fold_left run_part] in V; cbn [close].
      - destruct (choose_sym close_step segs) as [[|x [|? ?]]|] eqn:Ec0; try discriminate.
        unfold run_step in V. rewrite (choose_sig its close_step eq_refl) in V. fold E in V. rewrite HE, (choose_sym_ok _ _ _ _ HS Ec0) in V.
        assert (Hx : exists i, cat parts [x] = [i]).
        { unfold choose_sym in Ec0. destruct (selidx (s_sel close_step) 0 segs) as [l0|] eqn:El; [|discriminate].
          destruct (selidx_ok i_el _ _ _ HS 0 [] l0 eq_refl El) as [_ E2]. cbn [s_mode close_step] in Ec0.
          destruct l0 as [|[y [|]] l0]; try discriminate. injection Ec0 as ->. inversion E2 as [|? ? Hx _]; subst.
          destruct (Hx eq_refl) as (i & Hi). exists i. cbn [fst app] in Hi. unfold cat. cbn. now rewrite Hi. }
        destruct Hx as (i & Hx). rewrite Hx in V. cbn [emit_all emit] in V. rewrite <- HE in V.
        exact (Fin _ _ V).
      - unfold run_step in V. rewrite (choose_sig its close_step eq_refl) in V. fold E in V.
        assert (Hb : has_item (STok R_PAREN) its = negb (nilb (choose close_step E))).
        { unfold E. rewrite <- (choose_sig its close_step eq_refl). unfold choose, has_item. cbn [close_step s_sel s_mode].
          clear. induction its as [|i l IH]; [reflexivity|]. cbn [existsb filter].
          destruct (selects (STok R_PAREN) (i_el i)); [reflexivity|exact IH]. }
        rewrite Hb. unfold choose in V |- *. cbn [close_step s_mode s_sel] in V |- *.
        destruct (filter (fun i => selects (STok R_PAREN) (i_el i)) E) as [|i r]; cbn [firstn] in V |- *.
        + cbn [emit_all] in V. exact (Fin _ _ V).
        + cbn [emit_all emit] in V. exact (Fin _ _ V).
      - pose proof (K_tr _ _ _ _ _ _ _ _ V) as Ht. cbn [snd] in Ht. rewrite (Ha eq_refl) in Ht.
        subst tr. rewrite app_nil_r. exact (Fin _ _ V).
      - exact (Fin _ _ V).
    Qed.
  End Run.

  (** ** Nodes *)

  Notation layrow := (lay_row w sp (lay w sp)).
  Lemma lay_node n k cs : lay w sp n (Node k cs) = layrow k (token_in L_PAREN cs) n [] [] cs.
  Proof. reflexivity. Qed.
  Lemma layrow_sig k pb n before ts c r : significant c = true ->
    layrow k pb n before ts (c :: r)
    = in_front w sp k pb (lev k pb n c) before ts c
      ++ lay w sp (lev k pb n c + mo (deep c)) c ++ layrow k pb n (c :: before) [] r.
  Proof. intros H. cbn [lay_row]. now rewrite H. Qed.

  (** What is printed for white space and comments. *)
  Definition TrivEl (g : green) : Prop := significant g = false /\ GoodEl g.
  Definition after_docs (prev : green) (ts : list green) : list doc :=
    match prev with
    | Tok _ _ => let ts := skip_ws ts in if forallb is_ws ts then [] else space :: flat_map (trivia_docs o) ts
    | Node _ _ =>
        if forallb (fun g => is_ws g && Nat.ltb (count_lf (gtext g)) 2) ts then []
        else (match ts with g :: _ => if is_comment g then [DSoft] else [] | [] => [] end)
             ++ flat_map (trivia_docs o) ts
    end.
  Lemma after_eq i : after o i = after_docs (i_el i) (trail (i_next i)).
  Proof. unfold after. destruct (i_el i); reflexivity. Qed.

  Lemma pad_line c r : ((if starts_blank (c :: r) then T ";;" ++ c :: r else T ";; " ++ c :: r) = T ";;" ++ pad (c :: r) ++ c :: r)%list.
  Proof. unfold pad. change (blank_first (c :: r)) with (starts_blank (c :: r)). destruct (starts_blank (c :: r)); reflexivity. Qed.
  Lemma line_spec t : LexForm LINE_COMMENT t -> line_comment_text o t = comment_text sp LINE_COMMENT t.
  Proof.
    intros (r & -> & _). unfold line_comment_text, comment_text. destruct sp; [|reflexivity].
    change (strip_prefix (T ";;") (T ";;" ++ r)) with (Some r). change (skipn 2 (T ";;" ++ r)) with r.
    destruct r as [|c r]; [reflexivity|]. apply pad_line.
  Qed.
  Lemma block_spec t : LexForm BLOCK_COMMENT t -> block_comment_text o t = comment_text sp BLOCK_COMMENT t.
  Proof.
    intros (m & -> & _). unfold block_comment_text, comment_text. destruct sp; [|reflexivity].
    change (strip_prefix (T "(;") (T "(;" ++ m ++ T ";)")) with (Some (m ++ T ";)")). cbv iota. rewrite strip_suffix_app.
    replace (firstn (length (T "(;" ++ m ++ T ";)") - 4) (skipn 2 (T "(;" ++ m ++ T ";)"))) with m.
    - destruct m as [|c m]; [reflexivity|]. cbn [nilb orb]. unfold pad, ends_blank.
      change (blank_first (c :: m)) with (starts_blank (c :: m)).
      change (blank_first (rev (c :: m))) with (starts_blank (rev (c :: m))).
      destruct (starts_blank (c :: m)), (starts_blank (rev (c :: m))); reflexivity.
    - change (skipn 2 (T "(;" ++ m ++ T ";)")) with (m ++ T ";)"). rewrite !app_length.
      change (length (T "(;")) with 2. change (length (T ";)")) with 2.
      replace (2 + (length m + 2) - 4) with (length m) by lia. rewrite firstn_app, Nat.sub_diag, firstn_all. symmetry. apply app_nil_r.
  Qed.
  Lemma flatl_text m t : LexOK t -> flatl m [DText t] = [Word t].
  Proof.
    intros H. rewrite flatl_one. cbn [flat]. destruct (text_eqb t (T " ")) eqn:E; [|reflexivity]. exfalso.
    apply text_eqb_eq in E. pose proof (text_not_space _ H) as X. subst t. discriminate X.
  Qed.
  Lemma flatl_gap m t : flatl m (gap_docs t) = trivia_pieces sp m (Tok WHITESPACE t).
  Proof.
    unfold gap_docs. cbn [trivia_pieces]. change (lines t) with (count_lf t). destruct (count_lf t) as [|[|?]]; reflexivity.
  Qed.
  Lemma flatl_trivia m g : TrivEl g -> flatl m (trivia_docs o g) = trivia_pieces sp m g.
  Proof.
    intros [Hs Hg]. destruct g as [k t|]; [|discriminate]. destruct Hg as [He Hl]. cbn [significant] in Hs. apply negb_false_iff in Hs.
    specialize (Hl Hs). destruct k; try discriminate Hs; try congruence.
    - apply flatl_gap.
    - cbn [trivia_docs trivia_pieces]. rewrite <- (line_spec t Hl). apply flatl_text. exact (proj1 (line_text_ok o t Hl)).
    - cbn [trivia_docs trivia_pieces]. rewrite <- (block_spec t Hl). apply flatl_text. exact (proj1 (block_text_ok o t Hl)).
  Qed.
  Lemma flatl_trivias m ts : Forall TrivEl ts -> flatl m (flat_map (trivia_docs o) ts) = flat_map (trivia_pieces sp m) ts.
  Proof.
    induction 1 as [|g ts H _ IH]; [reflexivity|]. cbn [flat_map]. now rewrite flatl_app, IH, flatl_trivia.
  Qed.
  Lemma triv_comment g : TrivEl g -> is_comment g = a_comment g /\ is_ws g = negb (a_comment g).
  Proof.
    intros [Hs Hg]. destruct g as [k t|]; [|discriminate]. destruct Hg as [He _]. cbn [significant] in Hs. apply negb_false_iff in Hs.
    destruct k; try discriminate Hs; try congruence; split; reflexivity.
  Qed.
  Lemma skip_from ts : Forall TrivEl ts -> skip_ws ts = from_comment ts.
  Proof.
    induction 1 as [|g ts [Hs Hg] _ IH]; [reflexivity|]. destruct g as [k t|]; [|discriminate].
    destruct k; try reflexivity. exact IH.
  Qed.
  Lemma from_some ts : Forall TrivEl ts -> forallb is_ws (skip_ws ts) = negb (existsb a_comment ts).
  Proof.
    induction 1 as [|g ts H HF IH]; [reflexivity|]. destruct (triv_comment _ H) as [_ E]. cbn [skip_ws existsb]. rewrite E.
    destruct (a_comment g) eqn:Ec; cbn [negb orb forallb]; [|exact IH]. now rewrite E.
  Qed.
  Lemma after_spec prev ts : Forall TrivEl ts ->
    nilb (after_docs prev ts) = negb (kept_between prev ts)
    /\ (kept_between prev ts = true -> forall m, flatl m (after_docs prev ts) = between sp m prev ts).
  Proof.
    intros H. destruct prev as [k t|k cs]; cbn [after_docs].
    - assert (Ek : kept_between (Tok k t) ts = existsb a_comment ts).
      { unfold kept_between. clear. induction ts as [|g ts IH]; [reflexivity|]. cbn [existsb]. now rewrite IH, orb_false_r. }
      rewrite Ek, (from_some _ H). destruct (existsb a_comment ts); cbn [negb]; (split; [reflexivity|]); [|discriminate].
      intros _ m. change (space :: flat_map (trivia_docs o) (skip_ws ts)) with ([space] ++ flat_map (trivia_docs o) (skip_ws ts)).
      rewrite flatl_app, skip_from by exact H. cbn [between]. rewrite flatl_trivias; [reflexivity|].
      rewrite <- skip_from by exact H. clear -H. induction H as [|g ts Hg H IH]; cbn [skip_ws]; [constructor|].
      destruct (is_ws g); [exact IH|now constructor].
    - assert (Ek : forallb (fun g => is_ws g && Nat.ltb (count_lf (gtext g)) 2) ts = negb (kept_between (Node k cs) ts)).
      { unfold kept_between. clear -H. induction H as [|g ts Hg H IH]; [reflexivity|]. cbn [existsb forallb]. rewrite IH, !negb_orb.
        destruct (triv_comment _ Hg) as [_ ->]. f_equal. destruct Hg as [Hs Hg].
        destruct g as [k' t|]; [|discriminate]. destruct k'; cbn [a_comment negb andb]; try reflexivity; try (destruct Hg; congruence); try discriminate Hs.
        change (lines t) with (count_lf t). rewrite Nat.leb_antisym. cbn [gtext]. now rewrite negb_involutive. }
      rewrite Ek. destruct (kept_between (Node k cs) ts) eqn:E; cbn [negb].
      + split.
        * destruct ts as [|g ts]; [discriminate|]. inversion H as [|? ? Hg _]; subst. destruct (triv_comment _ Hg) as [-> W].
          destruct (a_comment g) eqn:Ea; [reflexivity|]. cbn [app flat_map]. destruct g as [k' t|]; [|discriminate W].
          destruct k'; try discriminate W. cbn [trivia_docs]. unfold gap_docs. destruct (count_lf t) as [|[|?]]; reflexivity.
        * intros _ m. rewrite flatl_app, flatl_trivias by exact H. cbn [between]. f_equal.
          destruct ts as [|g ts]; [reflexivity|]. inversion H as [|? ? Hg _]; subst. destruct (triv_comment _ Hg) as [-> _].
          destruct (a_comment g); reflexivity.
      + split; [reflexivity|discriminate].
  Qed.

  Definition ItemL (i : item) : Prop := significant (i_el i) = true -> forall n, flat n (i_doc i) = lay w sp n (i_el i).

  Lemma trail_trivs l : Forall GoodEl l -> Forall TrivEl (trail l).
  Proof.
    induction 1 as [|g l Hg _ IH]; [constructor|]. destruct (significant g) eqn:E.
    - rewrite trail_sig by assumption. constructor.
    - rewrite trail_triv by exact E. constructor; [split; assumption|exact IH].
  Qed.
  Lemma row_lays k pb n outer : forall l p1 p2 before ts,
    Forall ItemL (items o outer p1 p2 l) -> Forall GoodEl l -> Forall TrivEl ts ->
    rowi k pb n before (match before with b :: _ => after_docs b (ts ++ trail l) | [] => [] end) (sigs (items o outer p1 p2 l))
    = layrow k pb n before ts l.
  Proof.
    induction l as [|c l IH]; intros p1 p2 before ts HI HG HT; [reflexivity|].
    cbn [items] in HI |- *. inversion HI as [|? ? H1 H2]; subst. inversion HG as [|? ? G1 G2]; subst. cbn [i_el] in H1.
    unfold sigs. cbn [filter i_el]. destruct (significant c) eqn:Es.
    - rewrite layrow_sig by exact Es. cbn [rowi i_el]. specialize (H1 Es). cbn [i_doc i_el] in H1.
      rewrite trail_sig by assumption. rewrite app_nil_r. fold (sigs (items o outer (Some c) p1 l)).
      rewrite after_eq. cbn [i_el i_next].
      change (trail l) with ([] ++ trail l). rewrite (IH _ _ (c :: before) [] H2 G2 ltac:(constructor)).
      unfold piece_of. cbn [i_el i_doc]. rewrite H1, <- app_assoc. f_equal. unfold in_front.
      destruct before as [|b before]; [reflexivity|]. destruct (after_spec b ts HT) as [E1 E2]. rewrite E1.
      destruct (kept_between b ts); [|reflexivity]. cbn [negb]. now rewrite E2.
    - fold (sigs (items o outer (Some c) p1 l)). cbn [lay_row]. rewrite Es, trail_triv by exact Es.
      rewrite <- (IH (Some c) p1 before (ts ++ [c]) H2 G2).
      + now rewrite <- app_assoc.
      + apply Forall_app. split; [exact HT|]. constructor; [split; assumption|constructor].
  Qed.

  Definition Lays (g : green) : Prop :=
    WF o g -> significant g = true -> forall outer, should_ignore o outer = false ->
    forall n, flat n (gdoc o outer g) = lay w sp n g.
  Lemma WF_child k cs c : WF o (Node k cs) -> In c cs -> WF o c.
  Proof. intros H Hc. pose proof (WF_children o _ _ H) as X. unfold WFs in X. rewrite Forall_forall in X. auto. Qed.

  Lemma node_row k cs outer pb n : WF o (Node k cs) -> Forall Lays cs ->
    rowi k pb n [] [] (sigs (items o outer None None cs)) = layrow k pb n [] [] cs.
  Proof.
    intros HW HL.
    apply (row_lays k pb n outer cs None None [] []); [|apply (WFs_good o), (WF_children o _ _ HW)|constructor].
    apply Forall_forall. intros i Hi Hs.
    pose proof (items_spec o cs outer cs [] None None eq_refl (or_introl eq_refl) (or_introl eq_refl)) as HS.
    rewrite Forall_forall in HS. destruct (HS i Hi) as (pre & E & p & Hp & Ed & Ep).
    intros m. rewrite Ed. assert (Hin : In (i_el i) cs) by (rewrite E; apply in_elt). rewrite Forall_forall in HL.
    apply (HL _ Hin); [exact (WF_child _ _ _ HW Hin)|exact Hs|].
    apply known_ignore with cs; [exact (WF_children o _ _ HW)|exact Hp].
  Qed.

  Lemma afters_last k cs outer : WF o (Node k cs) -> afters o [] (sigs (items o outer None None cs)) = [].
  Proof.
    intros HW. destruct (proj1 HW k cs (Sub_here _)) as (_ & _ & _ & _ & Ht).
    set (its := items o outer None None cs). unfold afters. destruct (rev (sigs its)) as [|i r] eqn:E; [reflexivity|].
    rewrite after_eq.
    assert (Hn : i_next i = []).
    { pose proof (items_rows o outer None None cs) as HR. fold its in HR.
      clear -HR Ht E. revert Ht i r E. induction HR as [|g l j rr E1 E2 HR IH]; intros Ht i r E; [discriminate|].
      assert (Es : sigs (j :: rr) = (if significant (i_el j) then [j] else []) ++ sigs rr).
      { unfold sigs. cbn [filter]. destruct (significant (i_el j)); reflexivity. }
      rewrite Es, rev_app_distr in E. destruct (rev (sigs rr)) as [|x y] eqn:Er.
      - cbn [app] in E. destruct (significant (i_el j)) eqn:Ej; [|discriminate]. injection E as <- _.
        rewrite app_nil_r in E2. rewrite E2. destruct l as [|h l]; [reflexivity|]. exfalso.
        assert (Hl : existsb significant (h :: l) = true) by (apply notrail_sig; [exact (notrail_cons _ _ Ht)|discriminate]).
        apply existsb_exists in Hl as (z & Hz & Hz2). rewrite <- (rows_map _ _ _ HR) in Hz.
        apply in_map_iff in Hz as (q & <- & Hq).
        assert (In q (sigs rr)) by (unfold sigs; now apply filter_In). apply in_rev in H. rewrite Er in H. destruct H.
      - injection E as <- _. apply (IH (notrail_cons _ _ Ht) x y eq_refl). }
    rewrite Hn. destruct (i_el i); reflexivity.
  Qed.

  Lemma parts_lay k cs outer l c nest segs gs n :
    WF o (Node k cs) -> should_ignore o outer = false -> Forall Lays cs ->
    node_doc o (Node k cs) (items o outer None None cs)
      = shape_doc o (Node k cs) (items o outer None None cs) (Parts l c nest) ->
    form3 k l c nest segs = true ->
    Forall2 (SegM (fun g => g)) segs gs -> filter significant cs = concat gs ->
    flat n (gdoc o outer (Node k cs)) = lay w sp n (Node k cs).
  Proof.
    intros HG Ho HL Hsh Hok HS HE.
    pose proof (items_ok o _ _ _ HG Ho (all_prints o cs)) as HI. rewrite gdoc_node.
    rewrite lay_node. rewrite <- (node_row k cs outer _ n HG HL).
    set (its := items o outer None None cs) in *.
    assert (Em : map i_el (sigs its) = concat gs).
    { rewrite sigs_map. unfold its. now rewrite items_el. }
    destruct (parts_lift i_el _ _ _ HS Em) as (parts & HS' & HE').
    rewrite Hsh.
    assert (Hpb : has_item (STok L_PAREN) its = has_lparen_seg segs).
    { unfold form3 in Hok. apply andb_prop in Hok as [Hok _]. apply andb_prop in Hok as [Hok _].
      destruct (has_lparen_seg segs) eqn:E; [now apply (paren_ok its segs parts HE' HS')|]. cbn [orb] in Hok.
      apply not_true_iff_false. intros X. unfold has_item in X. apply existsb_exists in X as (i & Hi & Hi2).
      assert (Hs : In i (sigs its)).
      { unfold sigs. apply filter_In. split; [exact Hi|]. destruct (i_el i) as [k' t|]; [|discriminate]. cbn [selects] in Hi2.
        apply kind_eqb_eq in Hi2. subst k'. reflexivity. }
      rewrite HE' in Hs.
      apply in_concat in Hs as (p & Hp & Hip).
      destruct (In_nth _ _ [] Hp) as (m & Hm & E1). rewrite <- E1 in Hip.
      destruct (seg_in _ _ _ _ HS' Hip) as (y & Hy & Hm2). destruct (i_el i) as [k' t|]; [|discriminate]. cbn [selects] in Hi2.
      apply kind_eqb_eq in Hi2. subst k'. unfold no_lparen in Hok. rewrite forallb_forall in Hok.
      assert (Hys : In y (flat_map seg_syms segs)).
      { unfold at_seg in Hy. destruct (Nat.lt_ge_cases m (length segs)).
        - apply in_flat_map. exists (nth m segs (SMany [])). split; [now apply nth_In|exact Hy].
        - rewrite nth_overflow in Hy by lia. destruct Hy. }
      specialize (Hok _ Hys). destruct y as [x|k'|k']; cbn [SymM] in Hm2; try contradiction.
      - destruct Hm2; discriminate.
      - subst k'. discriminate. }
    assert (Htok : token_in L_PAREN cs = has_lparen_seg segs).
    { rewrite <- Hpb, has_item_el. unfold its. rewrite items_el. reflexivity. }
    rewrite Htok.
    rewrite (form_lays k n its segs parts HE' HS' HI Hpb); [reflexivity|exact Hok|].
    intros _. exact (afters_last k cs outer HG).
  Qed.

  Lemma table_lay k cs outer n : In k (TYPE_USE :: part_kinds) -> WF o (Node k cs) -> should_ignore o outer = false ->
    Forall Lays cs -> flat n (gdoc o outer (Node k cs)) = lay w sp n (Node k cs).
  Proof.
    intros Hin HG Ho HL. pose proof kinds_ok3 as X. rewrite forallb_forall in X. pose proof (X _ Hin) as Hk.
    unfold kind_ok3 in Hk. destruct (shape_of k) as [[| |l c nest|]|] eqn:Hsh; try discriminate.
    destruct (alts (ordinary k)) as [a|] eqn:Ha; [|discriminate].
    destruct (proj1 HG k cs (Sub_here _)) as (Hk0 & Hm & _).
    destruct (alts_ok _ _ _ Ha Hm) as (segs & gs & H1 & H2 & H3).
    rewrite forallb_forall in Hk. specialize (Hk _ H1).
    eapply parts_lay; eauto. exact (node_shape o _ _ _ _ Hk0 Hsh).
  Qed.

  (** Nodes with a single child. *)
  Lemma single_lay k x n pb : significant x = true -> inner k pb x = false -> deep x = false -> gap_before k [] x = Tight ->
    layrow k pb n [] [] [x] = lay w sp n x.
  Proof.
    intros Hs H1 H2 H3. rewrite layrow_sig by exact Hs. unfold lev. cbn [in_front]. rewrite H1, H2, H3. cbn [in_front more gap_pieces lay_row app].
    now rewrite !Nat.add_0_r, app_nil_r.
  Qed.
  Definition single_sym (k : kind) (y : sym) : bool :=
    negb (inner_sym k false y) && negb (inner_sym k true y) && negb (nd_in [OFFSET; ELEM_EXPR] y)
    && (kind_eqb k OPERAND || negb (is_instr_sym y)).
  Lemma single_sym_ok k y x n pb : single_sym k y = true -> SymM y x -> significant x = true ->
    layrow k pb n [] [] [x] = lay w sp n x.
  Proof.
    intros H Hm Hs. unfold single_sym in H. apply andb_prop in H as [H H4]. apply andb_prop in H as [H H3]. apply andb_prop in H as [H1 H2].
    apply negb_true_iff in H1, H2, H3. apply single_lay; [exact Hs| | |].
    - rewrite <- (inner_sym_eq k pb _ _ Hm). destruct pb; assumption.
    - apply not_true_iff_false. intros X. apply deep_kind in X as (k1 & cs & -> & Hk & _).
      destruct y as [z|k2|k2]; cbn [SymM] in Hm; try contradiction. subst k2. destruct Hk as [<-|[<-|[]]]; discriminate.
    - unfold gap_before. rewrite <- (instr_sym_eq _ _ Hm). destruct (is_instr_sym y); [|reflexivity].
      cbn [negb] in H4. rewrite orb_false_r in H4. now rewrite H4.
  Qed.

  Lemma whole_lay k cs outer ys n : WF o (Node k cs) -> plain_kind k -> syms (ordinary k) = Some ys ->
    forallb (fun y => is_token_sym y && single_sym k y) ys = true -> shape_of k = Some Whole -> Forall Lays cs ->
    flat n (gdoc o outer (Node k cs)) = lay w sp n (Node k cs).
  Proof.
    intros HG Hp Hs Hy Hsh HL. pose proof HG as HW.
    assert (Hn : k <> BLOCK_IF_THEN /\ k <> TYPE_USE /\ k <> ROOT).
    { repeat split; intros ->; apply Hp; cbn; tauto. }
    destruct Hn as (N1 & N2 & N3).
    destruct (one_child o _ _ _ HW N1 Hs) as (x & y & -> & Hin & Hm & Hsig).
    rewrite forallb_forall in Hy. specialize (Hy _ Hin). apply andb_prop in Hy as [Hy Hy2].
    rewrite lay_node, (single_sym_ok _ _ _ _ _ Hy2 Hm Hsig).
    assert (Ht : exists k' t, x = Tok k' t).
    { destruct x as [k' t|k' c]; [eauto|]. destruct y; try contradiction. discriminate. }
    destruct Ht as (k' & t & ->). inversion HL as [|? ? HL1 _]; subst.
    rewrite <- (HL1 (WF_child _ _ _ HG ltac:(now left)) Hsig None eq_refl).
    rewrite gdoc_node, (node_shape o _ _ _ _ N3 Hsh). cbn [shape_doc gdoc gtext map concat]. now rewrite app_nil_r.
  Qed.

  Lemma choice_lay k cs outer ys l tok n : WF o (Node k cs) -> plain_kind k -> syms (ordinary k) = Some ys ->
    forallb (single_sym k) ys = true ->
    forallb (fun y => match y with
                      | YNd k' => existsb (fun s => match s with SNode ks => existsb (kind_eqb k') ks | _ => false end) l
                      | _ => tok && forallb (fun s => match s with SNode _ => true | _ => false end) l
                      end) ys = true ->
    Forall Lays cs ->
    (forall its, node_doc o (Node k cs) its = shape_doc o (Node k cs) its (Choice l tok)) ->
    flat n (gdoc o outer (Node k cs)) = lay w sp n (Node k cs).
  Proof.
    intros HG Hp Hs H3 Hy HL Hsh. pose proof HG as HW.
    assert (Hn : k <> BLOCK_IF_THEN /\ k <> TYPE_USE).
    { split; intros ->; apply Hp; cbn; tauto. }
    destruct Hn as (N1 & N2).
    destruct (one_child o _ _ _ HW N1 Hs) as (x & y & -> & Hin & Hm & Hsig).
    rewrite forallb_forall in Hy, H3. specialize (Hy _ Hin). specialize (H3 _ Hin).
    rewrite lay_node, (single_sym_ok _ _ _ _ _ H3 Hm Hsig).
    inversion HL as [|? ? HL1 _]; subst.
    rewrite <- (HL1 (WF_child _ _ _ HG ltac:(now left)) Hsig None eq_refl). f_equal.
    rewrite gdoc_node, Hsh. cbn [shape_doc items filter i_el].
    destruct x as [k' t|k' c].
    - assert (F : flat_map (fun s => if selects s (Tok k' t) then [mk_item (Tok k' t) (gdoc o None (Tok k' t)) [] (or_else None outer)] else []) l = []
        /\ tok = true).
      { assert (Hy2 : tok && forallb (fun s => match s with SNode _ => true | _ => false end) l = true).
        { destruct y; try contradiction; exact Hy. }
        apply andb_prop in Hy2 as [-> Hy2]. split; [|reflexivity]. clear -Hy2.
        induction l as [|s l IH]; [reflexivity|]. cbn [forallb flat_map] in *. apply andb_prop in Hy2 as [H1 H2].
        rewrite (IH H2). destruct s; discriminate || reflexivity. }
      destruct F as [F ->]. rewrite F. reflexivity.
    - destruct y as [|?|k'']; try contradiction. cbn [SymM] in Hm. subst k''.
      clear -Hy. induction l as [|s l IH]; [discriminate|]. cbn [existsb flat_map] in *.
      destruct (selects s (Node k' c)) eqn:Es; [reflexivity|]. cbn [app]. apply IH.
      apply orb_prop in Hy as [Hy|Hy]; [|exact Hy]. exfalso. destruct s; try discriminate.
      cbn [selects] in Es. congruence.
  Qed.

  Lemma global_lay cs outer n : WF o (Node GLOBAL_TYPE cs) -> should_ignore o outer = false -> Forall Lays cs ->
    flat n (gdoc o outer (Node GLOBAL_TYPE cs)) = lay w sp n (Node GLOBAL_TYPE cs).
  Proof.
    intros HG Ho HL. pose proof HG as HW. destruct (proj1 HW _ _ (Sub_here _)) as (_ & Hm & _ & Hl & Ht).
    change (ordinary GLOBAL_TYPE) with (Or (Nd VAL_TYPE) (SpecSyntax.form "mut" [Nd VAL_TYPE])) in Hm.
    inversion Hm as [| | | | |? ? ? H1|? ? ? H1| |]; subst.
    - apply m_nd in H1 as (c1 & E). apply single in E; [|apply Hl; discriminate|exact Ht].
      subst cs. inversion HL as [|? ? HL1 _]; subst.
      rewrite lay_node, (single_sym_ok GLOBAL_TYPE (YNd VAL_TYPE) (Node VAL_TYPE c1) _ _ eq_refl eq_refl eq_refl).
      rewrite <- (HL1 (WF_child _ _ _ HG ltac:(now left)) eq_refl None eq_refl). reflexivity.
    - destruct (alts_ok (SpecSyntax.form "mut" [Nd VAL_TYPE]) _ _ eq_refl H1) as (segs & gs & I1 & I2 & I3).
      assert (Hp : has_item (STok L_PAREN) (items o outer None None cs) = true).
      { rewrite has_item_el, items_el. apply m_form in H1 as (t & y & E). apply existsb_exists.
        exists (Tok L_PAREN t). split; [|reflexivity]. assert (In (Tok L_PAREN t) (filter significant cs)) by (rewrite E; now left).
        now apply filter_In in H. }
      assert (A : forallb (form3 GLOBAL_TYPE (p_paren :: p_kw "mut" :: [p_node [VAL_TYPE]]) CParen false)
           match alts (SpecSyntax.form "mut" [Nd VAL_TYPE]) with Some a => a | None => [] end = true) by (vm_compute; reflexivity).
      rewrite forallb_forall in A. specialize (A _ I1).
      eapply (parts_lay GLOBAL_TYPE cs outer (p_paren :: p_kw "mut" :: [p_node [VAL_TYPE]]) CParen false segs gs); eauto.
      rewrite (node_shape o GLOBAL_TYPE _ _ _ ltac:(discriminate) eq_refl). cbn [shape_doc Format.form]. rewrite Hp. reflexivity.
  Qed.

  Theorem all_lay : forall g, Lays g.
  Proof.
    apply green_ind'.
    - intros k t HG Hs outer Ho n. apply WF_tok in HG as (H1 & H2 & H3 & _).
      cbn [significant] in Hs. apply negb_true_iff in Hs. destruct (token_lex k t H2 H3 H1 Hs) as [L1 L2].
      cbn [gdoc flat lay]. destruct (text_eqb t (T " ")) eqn:E; [|reflexivity]. exfalso.
      apply text_eqb_eq in E. pose proof (text_not_space _ L1) as X. subst t. discriminate X.
    - intros k cs HL HG _ outer Ho n.
      destruct (existsb (kind_eqb k) (TYPE_USE :: part_kinds)) eqn:Ek.
      { apply existsb_exists in Ek as (k' & Hin & E). apply kind_eqb_eq in E. subst k'. now apply table_lay. }
      pose proof HG as HW.
      destruct k; try discriminate Ek; try (exfalso; exact (no_production o _ _ HW eq_refl)); clear Ek.
      all: try (exfalso; destruct (proj1 HW _ _ (Sub_here _)) as (X & _); now apply X).
      all: try (eapply whole_lay; [exact HG|cbv; intuition discriminate|reflexivity|reflexivity|reflexivity|exact HL]).
      all: try (eapply choice_lay; [exact HG|cbv; intuition discriminate|reflexivity|reflexivity| |exact HL|reflexivity]; reflexivity).
      now apply global_lay.
  Qed.
End Opts.
