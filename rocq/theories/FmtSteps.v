(** The steps of the formatter's tables visit the children of a node in
    order, each once: a symbolic evaluation over the forms of a node. *)

From Coq Require Import String List NArith Bool Arith Lia.
From Verif Require Import Text Kind Green SpecParser SpecSyntax SpecFormat Format.
Import ListNotations.

(** ** The forms of a node as sequences of segments *)

Inductive sym : Type := YKw (s : string) | YTk (k : kind) | YNd (k : kind).
Inductive seg : Type := SOne (y : sym) | SMany (l : list sym).

Definition SymM (y : sym) (g : green) : Prop :=
  match y, g with
  | YKw s, Tok k t => k = KEYWORD /\ t = T s
  | YTk k, Tok k' _ => k = k'
  | YNd k, Node k' _ => k = k'
  | _, _ => False
  end.
Definition SegM {A : Type} (el : A -> green) (s : seg) (p : list A) : Prop :=
  match s with
  | SOne y => exists i, p = [i] /\ SymM y (el i)
  | SMany l => Forall (fun i => exists y, In y l /\ SymM y (el i)) p
  end.

Fixpoint syms (r : rx) : option (list sym) :=
  match r with
  | Kw s => Some [YKw s]
  | Tk k => Some [YTk k]
  | Nd k => Some [YNd k]
  | Or a b => match syms a, syms b with Some l, Some m => Some (l ++ m) | _, _ => None end
  | _ => None
  end.
Fixpoint alts (r : rx) : option (list (list seg)) :=
  match r with
  | Kw s => Some [[SOne (YKw s)]]
  | Tk k => Some [[SOne (YTk k)]]
  | Nd k => Some [[SOne (YNd k)]]
  | Eps => Some [[]]
  | Sq a b =>
      match alts a, alts b with
      | Some l, Some m => Some (flat_map (fun x => map (fun y => x ++ y) m) l)
      | _, _ => None
      end
  | Or a b => match alts a, alts b with Some l, Some m => Some (l ++ m) | _, _ => None end
  | Star a => match syms a with Some l => Some [[SMany l]] | None => None end
  end.

Lemma syms_ok r l o : syms r = Some l -> Matches r o -> exists g y, o = [g] /\ In y l /\ SymM y g.
Proof.
  revert l o. induction r; cbn [syms]; intros l0 o E H; try discriminate.
  - injection E as <-. inversion H; subst. exists (Tok KEYWORD (T s)), (YKw s). cbn. auto.
  - injection E as <-. inversion H; subst. exists (Tok k t), (YTk k). cbn. auto.
  - injection E as <-. inversion H; subst. exists (Node k cs), (YNd k). cbn. auto.
  - destruct (syms r1) as [l1|]; [|discriminate]. destruct (syms r2) as [l2|]; [|discriminate].
    injection E as <-. inversion H; subst.
    + destruct (IHr1 _ _ eq_refl ltac:(eassumption)) as (g & y & -> & Hy & Hm).
      exists g, y. rewrite in_app_iff. auto.
    + destruct (IHr2 _ _ eq_refl ltac:(eassumption)) as (g & y & -> & Hy & Hm).
      exists g, y. rewrite in_app_iff. auto.
Qed.

Lemma alts_ok r l o : alts r = Some l -> Matches r o ->
  exists segs parts, In segs l /\ Forall2 (SegM (fun g => g)) segs parts /\ o = concat parts.
Proof.
  revert l o. induction r; cbn [alts]; intros l0 o E H.
  - injection E as <-. inversion H; subst. exists [SOne (YKw s)], [[Tok KEYWORD (T s)]].
    split; [now left|]. split; [|reflexivity]. repeat constructor. eexists. split; [reflexivity|]. cbn. auto.
  - injection E as <-. inversion H; subst. exists [SOne (YTk k)], [[Tok k t]].
    split; [now left|]. split; [|reflexivity]. repeat constructor. eexists. split; [reflexivity|]. cbn. auto.
  - injection E as <-. inversion H; subst. exists [SOne (YNd k)], [[Node k cs]].
    split; [now left|]. split; [|reflexivity]. repeat constructor. eexists. split; [reflexivity|]. cbn. auto.
  - injection E as <-. inversion H; subst. exists [], []. split; [now left|]. split; [constructor|reflexivity].
  - destruct (alts r1) as [l1|]; [|discriminate]. destruct (alts r2) as [l2|]; [|discriminate].
    injection E as <-. inversion H; subst.
    destruct (IHr1 _ _ eq_refl ltac:(eassumption)) as (s1 & p1 & I1 & F1 & ->).
    destruct (IHr2 _ _ eq_refl ltac:(eassumption)) as (s2 & p2 & I2 & F2 & ->).
    exists (s1 ++ s2), (p1 ++ p2). split; [|split].
    + apply in_flat_map. exists s1. split; [exact I1|]. apply in_map_iff. eauto.
    + now apply Forall2_app.
    + now rewrite concat_app.
  - destruct (alts r1) as [l1|]; [|discriminate]. destruct (alts r2) as [l2|]; [|discriminate].
    injection E as <-. inversion H; subst.
    + destruct (IHr1 _ _ eq_refl ltac:(eassumption)) as (s1 & p1 & I1 & F1 & ->).
      exists s1, p1. rewrite in_app_iff. auto.
    + destruct (IHr2 _ _ eq_refl ltac:(eassumption)) as (s1 & p1 & I1 & F1 & ->).
      exists s1, p1. rewrite in_app_iff. auto.
  - destruct (syms r) as [l1|] eqn:Es; [|discriminate]. injection E as <-.
    exists [SMany l1], [o]. split; [now left|]. split; [|cbn; now rewrite app_nil_r].
    constructor; [|constructor]. cbn [SegM].
    remember (Star r) as sr eqn:Er. clear IHr. induction H; try discriminate; injection Er as ->.
    + constructor.
    + destruct (syms_ok _ _ _ Es H) as (g & y & -> & Hy & Hm). apply Forall_app. split; [|auto].
      constructor; [eauto|constructor].
Qed.

(** The same for any list with those elements. *)
Lemma parts_lift {A : Type} (el : A -> green) segs gs (l : list A) :
  Forall2 (SegM (fun g => g)) segs gs -> map el l = concat gs ->
  exists parts, Forall2 (SegM el) segs parts /\ l = concat parts.
Proof.
  intros H. revert l. induction H as [|s g segs gs Hs _ IH]; intros l E; cbn [concat] in E.
  - destruct l; [|discriminate]. exists []. split; [constructor|reflexivity].
  - apply map_eq_app in E as (l1 & l2 & -> & E1 & E2). destruct (IH _ E2) as (parts & Hp & ->).
    exists (l1 :: parts). split; [|reflexivity]. constructor; [|exact Hp].
    destruct s as [y|ys]; cbn [SegM] in *.
    + destruct Hs as (i & -> & Hm). destruct l1 as [|a [|b l1]]; try discriminate.
      injection E1 as E1. exists a. rewrite E1. auto.
    + rewrite <- E1 in Hs. exact (proj1 (Forall_map el _ l1) Hs).
Qed.

(** ** Symbolic selection *)

Definition sel_sym (s : sel) (y : sym) : option bool :=
  match s, y with
  | STok k, YTk k' => Some (kind_eqb k k')
  | STok k, YKw _ => Some (kind_eqb k KEYWORD)
  | STok _, YNd _ => Some false
  | SKw w, YKw w' => Some (text_eqb (T w') (T w))
  | SKw _, YTk k => if kind_eqb k KEYWORD then None else Some false
  | SKw _, YNd _ => Some false
  | SNode ks, YNd k => Some (existsb (kind_eqb k) ks)
  | SNode _, _ => Some false
  end.
Lemma sel_sym_ok s y g b : SymM y g -> sel_sym s y = Some b -> selects s g = b.
Proof.
  destruct s as [k|w|ks], y as [w'|k'|k'], g as [k2 t|k2 cs]; cbn [SymM sel_sym]; try contradiction;
    intros H E; try (injection E as <-).
  - destruct H as [-> ->]. reflexivity.
  - subst k2. reflexivity.
  - reflexivity.
  - destruct H as [-> ->]. reflexivity.
  - subst k2. destruct (kind_eqb k' KEYWORD) eqn:Ek; [discriminate|]. injection E as <-.
    cbn [selects]. destruct k'; try reflexivity. discriminate.
  - reflexivity.
  - reflexivity.
  - reflexivity.
  - subst k2. reflexivity.
Qed.

Definition all_same (l : list (option bool)) : option bool :=
  match l with
  | [] => Some false
  | Some b :: r => if forallb (fun x => match x with Some c => Bool.eqb b c | None => false end) r then Some b else None
  | None :: _ => None
  end.
Definition sel_seg (s : sel) (g : seg) : option bool :=
  match g with SOne y => sel_sym s y | SMany l => all_same (map (sel_sym s) l) end.

Lemma all_same_ok l b x : all_same l = Some b -> In x l -> x = Some b.
Proof.
  destruct l as [|[c|] r]; cbn [all_same]; try discriminate; [intros _ []|].
  destruct (forallb _ r) eqn:E; [|discriminate]. intros H. injection H as ->. intros [H|H]; [congruence|].
  rewrite forallb_forall in E. specialize (E _ H). destruct x as [c|]; [|discriminate].
  apply Bool.eqb_prop in E. congruence.
Qed.

Section Sel.
  Context {A : Type} (el : A -> green).
  Lemma sel_seg_ok s g b p : SegM el g p -> sel_seg s g = Some b ->
    filter (fun i => selects s (el i)) p = if b then p else [].
  Proof.
    destruct g as [y|l]; cbn [SegM sel_seg].
    - intros (i & -> & Hm) E. cbn [filter]. rewrite (sel_sym_ok _ _ _ _ Hm E). now destruct b.
    - intros H E. induction H as [|i p (y & Hy & Hm) _ IH]; [now destruct b|]. cbn [filter].
      assert (E1 : sel_sym s y = Some b).
      { eapply all_same_ok; [exact E|]. apply in_map_iff. eauto. }
      rewrite (sel_sym_ok _ _ _ _ Hm E1), IH. now destruct b.
  Qed.

  Definition is_one (g : seg) : bool := match g with SOne _ => true | SMany _ => false end.

  (** The selected segments with their numbers, from [n]. *)
  Fixpoint selidx (s : sel) (n : nat) (segs : list seg) : option (list (nat * bool)) :=
    match segs with
    | [] => Some []
    | g :: r =>
        match sel_seg s g, selidx s (S n) r with
        | Some b, Some l => Some (if b then (n, is_one g) :: l else l)
        | _, _ => None
        end
    end.
  Definition cat (parts : list (list A)) (l : list nat) : list A := concat (map (fun i => nth i parts []) l).

  Lemma cat_app parts a b : cat parts (a ++ b) = cat parts a ++ cat parts b.
  Proof. unfold cat. now rewrite map_app, concat_app. Qed.
  Lemma cat_shift x parts l : cat (x :: parts) (map S l) = cat parts l.
  Proof. unfold cat. rewrite map_map. reflexivity. Qed.
  Lemma cat_all parts : cat parts (List.seq 0 (length parts)) = concat parts.
  Proof.
    induction parts as [|p parts IH]; [reflexivity|]. cbn [length List.seq].
    rewrite <- seq_shift. change (0 :: map S (List.seq 0 (length parts))) with ([0] ++ map S (List.seq 0 (length parts))).
    rewrite cat_app, cat_shift, IH. cbn. now rewrite app_nil_r.
  Qed.

  Lemma selidx_ok s segs parts : Forall2 (SegM el) segs parts ->
    forall n pre l, length pre = n -> selidx s n segs = Some l ->
    filter (fun i => selects s (el i)) (concat parts) = cat (pre ++ parts) (map fst l)
    /\ Forall (fun p => snd p = true -> exists x, nth (fst p) (pre ++ parts) [] = [x]) l.
  Proof.
    induction 1 as [|g p segs parts Hg _ IH]; intros n pre l Hn E; cbn [selidx] in E.
    - injection E as <-. split; [reflexivity|constructor].
    - destruct (sel_seg s g) as [b|] eqn:Eb; [|discriminate].
      destruct (selidx s (S n) segs) as [l'|] eqn:El; [|discriminate]. injection E as <-.
      destruct (IH (S n) (pre ++ [p]) l' ltac:(rewrite app_length; cbn; lia) El) as [E1 E2].
      rewrite <- app_assoc in E1, E2. cbn [app] in E1, E2.
      cbn [concat]. rewrite filter_app, E1, (sel_seg_ok _ _ _ _ Hg Eb).
      destruct b; [|now split]. cbn [map fst]. split.
      + change (n :: map fst l') with ([n] ++ map fst l'). rewrite cat_app. f_equal.
        cbn. rewrite app_nth2, Hn, Nat.sub_diag by lia. cbn. now rewrite app_nil_r.
      + constructor; [|exact E2]. cbn [fst snd]. intros Ho.
        rewrite app_nth2, Hn, Nat.sub_diag by lia. cbn.
        destruct g; [|discriminate]. destruct Hg as (i & -> & _). eauto.
  Qed.
End Sel.

Definition choose_sym (s : step) (segs : list seg) : option (list nat) :=
  match selidx (s_sel s) 0 segs with
  | None => None
  | Some l =>
      match s_mode s with
      | Each => Some (map fst l)
      | First =>
          match l with
          | [] => Some []
          | (i, true) :: _ => Some [i]
          | _ => None
          end
      | Second =>
          match l with
          | [] | [(_, true)] => Some []
          | (_, true) :: (j, true) :: _ => Some [j]
          | _ => None
          end
      end
  end.

Lemma choose_sym_ok s segs parts idx :
  Forall2 (SegM i_el) segs parts -> choose_sym s segs = Some idx ->
  choose s (concat parts) = cat parts idx.
Proof.
  intros H E. unfold choose_sym in E. destruct (selidx (s_sel s) 0 segs) as [l|] eqn:El; [|discriminate].
  destruct (selidx_ok i_el _ _ _ H 0 [] l eq_refl El) as [E1 E2]. cbn [app] in E1, E2.
  unfold choose. rewrite E1.
  destruct (s_mode s).
  - destruct l as [|[i [|]] l]; try discriminate; injection E as <-; [reflexivity|].
    inversion E2 as [|? ? Hx _]; subst. destruct (Hx eq_refl) as (x & Hx'). cbn [fst] in Hx'.
    unfold cat. cbn [map fst concat]. rewrite Hx'. reflexivity.
  - destruct l as [|[i [|]] l]; try discriminate; [injection E as <-; reflexivity|].
    inversion E2 as [|? ? Hx E3]; subst. destruct (Hx eq_refl) as (x & Hx'). cbn [fst] in Hx'.
    destruct l as [|[j [|]] l]; try discriminate; injection E as <-.
    + unfold cat. cbn [map fst concat]. rewrite Hx'. reflexivity.
    + inversion E3 as [|? ? Hy _]; subst. destruct (Hy eq_refl) as (z & Hy'). cbn [fst] in Hy'.
      unfold cat. cbn [map fst concat]. rewrite Hx', Hy'. reflexivity.
  - now injection E as <-.
Qed.

(** ** The check of a table *)

Definition seg_syms (g : seg) : list sym := match g with SOne y => [y] | SMany l => l end.
Definition at_seg (segs : list seg) (n : nat) : list sym := seg_syms (nth n segs (SMany [])).

Definition sel_sig (s : sel) : bool :=
  match s with STok k => negb (is_trivia_kind k) | _ => true end.
Definition lit_sym (x : string) (y : sym) : bool :=
  match y with
  | YKw w => text_eqb (T w) (T x)
  | YTk L_PAREN => text_eqb (T "(") (T x)
  | YTk R_PAREN => text_eqb (T ")") (T x)
  | _ => false
  end.
Definition is_instr_sym (y : sym) : bool :=
  match y with YNd k => existsb (kind_eqb k) instr_kinds | _ => false end.
Definition is_lparen_sym (y : sym) : bool := match y with YTk L_PAREN => true | _ => false end.
Definition is_token_sym (y : sym) : bool := match y with YNd _ => false | _ => true end.
Definition nd_in (ks : list kind) (y : sym) : bool :=
  match y with YNd k => existsb (kind_eqb k) ks | _ => false end.
Definition lead_eqb (a b : lead) : bool :=
  match a, b with
  | LTight, LTight | LHard, LHard => true
  | _, _ => false
  end.
Definition has_lparen_seg (segs : list seg) : bool :=
  existsb (fun g => match g with SOne (YTk L_PAREN) => true | _ => false end) segs.
Definition short (l : list nat) : bool := match l with [] | [_] => true | _ => false end.

Definition lead_check (segs : list seg) (done : list nat) (nested : bool) (s : step) (idx : list nat) : bool :=
  let ys := flat_map (at_seg segs) idx in
  match s_lead s with
  | LSpace | LHard | LSoft | LOperand | LTypeUse | LLocal => true
  | LField => true
  | LTight =>
      match s_lit s with
      | Some x => text_eqb (T x) (T ")")
                  || nilb idx || nilb done
                  || (match done with [n] => forallb is_lparen_sym (at_seg segs n) && is_one (nth n segs (SMany [])) | _ => false end)
      | None => nilb idx || (short idx && forallb (fun n => is_one (nth n segs (SMany []))) idx &&
                 (nilb done
                  || (match done with [n] => forallb is_lparen_sym (at_seg segs n) && is_one (nth n segs (SMany [])) | _ => false end
                      && forallb is_token_sym ys)))
      end
  | LKeyworded => forallb (nd_in [ELEM_EXPR; OFFSET]) ys
  | LThen => forallb (nd_in [BLOCK_IF_THEN]) ys
  | LParam => negb nested && forallb (nd_in [PARAM; RESULT]) ys && (has_lparen_seg segs || nilb done)
  | LResult => negb nested && forallb (nd_in [PARAM; RESULT]) ys && (has_lparen_seg segs || nilb done)
  | LIndex => negb nested
  | LFresh => nilb idx || (short idx && forallb (fun n => is_one (nth n segs (SMany []))) idx && nilb done)
  end.

Definition step_check (segs : list seg) (done : list nat) (nested : bool) (s : step) (idx : list nat) : bool :=
  let ys := flat_map (at_seg segs) idx in
  sel_sig (s_sel s)
  && match s_lit s with Some x => forallb (lit_sym x) ys && forallb (fun n => is_one (nth n segs (SMany []))) idx && short idx | None => true end
  && (negb (existsb is_instr_sym ys) || lead_eqb (s_lead s) LHard)
  && (negb (existsb is_lparen_sym ys) || (lead_eqb (s_lead s) LTight && short idx))
  && lead_check segs done nested s idx.

Fixpoint sym_run (segs : list seg) (done : list nat) (l : list (bool * step)) : option (list nat) :=
  match l with
  | [] => Some done
  | (nested, s) :: r =>
      match choose_sym s segs with
      | Some idx => if step_check segs done nested s idx then sym_run segs (done ++ idx) r else None
      | None => None
      end
  end.

Definition steps_of_part (p : part) : list (bool * step) :=
  match p with One s => [(false, s)] | Nested _ l => map (pair true) l end.
Definition close_step : step := Step (STok R_PAREN) First LTight (Some ")"%string).
Definition closing_parts (c : closing) : list part :=
  match c with CParen | CIfParen => [One close_step] | CAppend | CNone => [] end.

Definition form_ok (l : list part) (c : closing) (segs : list seg) : bool :=
  match sym_run segs [] (flat_map steps_of_part (l ++ closing_parts c)) with
  | Some d => if list_eq_dec Nat.eq_dec d (List.seq 0 (length segs)) then true else false
  | None => false
  end
  && match c with
     | CParen => match choose_sym close_step segs with Some [_] => true | _ => false end
     | _ => true
     end.

Definition part_kinds : list kind :=
  [FUNC_TYPE; LIMITS; PARAM; RESULT; TABLE_TYPE; BLOCK_BLOCK; BLOCK_IF; BLOCK_IF_ELSE; BLOCK_IF_THEN;
   BLOCK_LOOP; PLAIN_INSTR; DATA; ELEM; ELEM_EXPR; ELEM_LIST; EXPORT; EXPORT_DESC_FUNC;
   EXPORT_DESC_GLOBAL; EXPORT_DESC_MEMORY; EXPORT_DESC_TABLE; IMPORT; IMPORT_DESC_GLOBAL_TYPE;
   IMPORT_DESC_MEMORY_TYPE; IMPORT_DESC_TABLE_TYPE; IMPORT_DESC_TYPE_USE; LOCAL; MEM_USE; MODULE;
   MODULE_FIELD_DATA; MODULE_FIELD_ELEM; MODULE_FIELD_EXPORT; MODULE_FIELD_FUNC; MODULE_FIELD_GLOBAL;
   MODULE_FIELD_IMPORT; MODULE_FIELD_MEMORY; MODULE_FIELD_START; MODULE_FIELD_TABLE;
   MODULE_FIELD_TYPE; OFFSET; TABLE_USE].
Definition kind_ok (k : kind) : bool :=
  match shape_of k, alts (ordinary k) with
  | Some (Parts l c _), Some a => forallb (form_ok l c) a
  | _, _ => false
  end.
