(** Printed documents as sequences of texts, blanks and line breaks, and the
    lexemes of what is printed. *)

From Coq Require Import String List NArith Bool Arith Lia.
From Verif Require Import Text Kind Green SpecParser SpecFormat Format.
Import ListNotations.

Inductive piece : Type := PT (t : text) | PS | PN.

Fixpoint pcs (d : doc) : list piece :=
  match d with
  | DNil => []
  | DText t => if text_eqb t (T " ") then [PS] else [PT t]
  | DNewLine | DEmptyLine => [PN]
  | DSoft => [PS]
  | DNest _ d => pcs d
  | DList l => flat_map pcs l
  end.
Definition pcsl (l : list doc) : list piece := flat_map pcs l.
Lemma pcsl_app a b : pcsl (a ++ b) = pcsl a ++ pcsl b.
Proof. apply flat_map_app. Qed.

Fixpoint texts (l : list piece) : list text :=
  match l with
  | [] => []
  | PT t :: r => t :: texts r
  | _ :: r => texts r
  end.
Lemma texts_app a b : texts (a ++ b) = texts a ++ texts b.
Proof. induction a as [|[t| |] a IH]; cbn; congruence. Qed.

(** ** What printing gives *)

Definition blankt (t : text) : Prop := Forall (fun c => is_blank c = true) t.
Inductive Rend : list piece -> text -> Prop :=
| R_nil : Rend [] []
| R_text t l x : Rend l x -> Rend (PT t :: l) (t ++ x)
| R_space w l x : w <> [] -> blankt w -> Rend l x -> Rend (PS :: l) (w ++ x)
| R_line c w l x : In c [c_lf; c_cr] -> (c = c_cr -> exists r, w = c_lf :: r) -> blankt w -> Rend l x -> Rend (PN :: l) (c :: w ++ x).

Lemma Rend_app a b x y : Rend a x -> Rend b y -> Rend (a ++ b) (x ++ y).
Proof.
  intros Ha Hb. induction Ha; cbn [app]; rewrite <- ?app_assoc; try constructor; auto.
Qed.

Lemma Rend_one t : Rend [PT t] t.
Proof. pose proof (R_text t [] [] R_nil) as H. now rewrite app_nil_r in H. Qed.

Lemma blankt_repeat c n : is_blank c = true -> blankt (repeat c n).
Proof. intros H. induction n; constructor; auto. Qed.

Section Print.
  Variable y : layout.
  Hypothesis Hb : line_break y = [c_lf] \/ line_break y = [c_cr; c_lf].

  Lemma indentation_blank n : blankt (indentation y n).
  Proof.
    unfold indentation. destruct (tabs y); [apply Forall_app; split|]; now apply blankt_repeat.
  Qed.

  Lemma line_rend w : blankt w -> Rend [PN] (line_break y ++ w).
  Proof.
    intros Hw. destruct Hb as [->| ->].
    - cbn [app]. rewrite <- (app_nil_r w). constructor; [now left|discriminate|exact Hw|constructor].
    - cbn [app]. rewrite <- (app_nil_r w). change (c_lf :: w ++ []) with ((c_lf :: w) ++ []).
      constructor; [right; now left|now exists w| |constructor]. constructor; [reflexivity|exact Hw].
  Qed.

  Definition Drend (d : doc) : Prop :=
    forall n rest col, Rend (pcs d) (fst (print_doc y d n rest col)).

  Lemma print_rend : forall d, Drend d.
  Proof.
    fix IH 1. intros d n rest col. destruct d as [|t| | | |m d|l].
    - constructor.
    - cbn [pcs print_doc fst]. destruct (text_eqb t (T " ")) eqn:E.
      + apply text_eqb_eq in E as ->. rewrite <- (app_nil_r (T " ")). constructor; [discriminate| |constructor].
        constructor; [reflexivity|constructor].
      + apply Rend_one.
    - cbn [pcs print_doc fst]. apply line_rend, indentation_blank.
    - cbn [pcs print_doc fst]. rewrite <- (app_nil_r (line_break y)). apply line_rend. constructor.
    - cbn [pcs print_doc]. destruct (fits y (S col) rest); cbn [fst].
      + rewrite <- (app_nil_r (T " ")). constructor; [discriminate| |constructor].
        constructor; [reflexivity|constructor].
      + rewrite <- (app_nil_r (line_break y ++ indentation y n)). constructor; [| |constructor].
        * destruct Hb as [->| ->]; discriminate.
        * apply Forall_app. split; [|apply indentation_blank].
          destruct Hb as [->| ->]; repeat constructor.
    - cbn [pcs print_doc]. apply IH.
    - cbn [pcs print_doc]. revert col. induction l as [|d l IHl]; intros col; [constructor|].
      cbn [flat_map].
      destruct (print_doc y d n (map (pair n) l ++ rest) col) as [t c1] eqn:E1.
      specialize (IHl c1).
      match goal with |- context [let '(t', c2) := ?e in _] => destruct e as [t' c2] eqn:E2 end.
      cbn [fst]. apply Rend_app.
      + pose proof (IH d n (map (pair n) l ++ rest) col) as H. rewrite E1 in H. exact H.
      + exact IHl.
  Qed.
End Print.

(** ** Lexemes *)

Definition is_atom (c : char) : bool :=
  negb (is_blank c || N.eqb c c_quote || N.eqb c c_lparen || N.eqb c c_rparen || N.eqb c c_semi).

Inductive cls := KAtom | KOpen | KClose | KStr | KLine | KBlock.
Definition cls_of (t : text) : cls :=
  match t with
  | [] => KAtom
  | c :: r =>
      if N.eqb c c_quote then KStr
      else if N.eqb c c_rparen then KClose
      else if N.eqb c c_semi then KLine
      else if N.eqb c c_lparen then match r with [] => KOpen | _ => KBlock end
      else KAtom
  end.

Definition LexOK (t : text) : Prop :=
  match cls_of t with
  | KAtom => t <> [] /\ Forall (fun c => is_atom c = true) t
  | KOpen => True
  | KClose => t = T ")"
  | KStr => exists b, StrBody b /\ t = [c_quote] ++ b ++ [c_quote]
  | KLine => exists r, t = T ";;" ++ r /\ Forall (fun c => c <> c_lf /\ c <> c_cr) r
  | KBlock => exists m, t = T "(;" ++ m ++ T ";)" /\ CommentBody m
  end.

(** What may follow a text. *)
Definition adj (t : text) (r : list piece) : Prop :=
  match r with
  | [] | PN :: _ => True
  | PS :: _ => cls_of t <> KLine
  | PT u :: _ => cls_of t <> KLine /\ (cls_of t = KAtom -> cls_of u <> KAtom)
                 /\ (cls_of t = KOpen -> cls_of u <> KLine)
  end.
Fixpoint okp (l : list piece) : Prop :=
  match l with
  | [] => True
  | PT t :: r => LexOK t /\ adj t r /\ okp r
  | _ :: r => okp r
  end.

Lemma lex_flush acc x :
  match x with [] => True | c :: _ => is_atom c = false end ->
  lex Out acc x = flush acc ++ lex Out [] x.
Proof.
  destruct x as [|c x]; [now rewrite app_nil_r|]. unfold is_atom. intros H.
  apply negb_false_iff in H. cbn [lex].
  destruct (is_blank c); [now cbn [flush app]|].
  destruct (N.eqb c c_quote); [now cbn [flush app]|].
  destruct (N.eqb c c_lparen); [now cbn [flush app]|].
  destruct (N.eqb c c_rparen); [now cbn [flush app]|].
  destruct (N.eqb c c_semi); [now cbn [flush app]|]. discriminate.
Qed.

Lemma lex_atoms t acc x : Forall (fun c => is_atom c = true) t ->
  lex Out acc (t ++ x) = lex Out (rev t ++ acc) x.
Proof.
  intros H. revert acc. induction H as [|c t Hc _ IH]; intros acc; [reflexivity|].
  cbn [app lex]. unfold is_atom in Hc. apply negb_true_iff in Hc.
  apply orb_false_elim in Hc as [Hc H4]. apply orb_false_elim in Hc as [Hc H3].
  apply orb_false_elim in Hc as [Hc H2]. apply orb_false_elim in Hc as [Hc H1].
  rewrite Hc, H1, H2, H3, H4. rewrite IH. cbn [rev]. now rewrite <- app_assoc.
Qed.

Lemma lex_blank w x : blankt w -> lex Out [] (w ++ x) = lex Out [] x.
Proof.
  induction 1 as [|c w Hc _ IH]; [reflexivity|]. cbn [app lex]. rewrite Hc. exact IH.
Qed.

Lemma lex_str_body b : StrBody b ->
  forall acc x, lex (InString false) acc (b ++ x) = lex (InString false) (rev b ++ acc) x.
Proof.
  induction 1 as [|p c Hp IH Hc Hq _ _|p c Hp IH Hc|p h Hp IH Hh]; intros acc x; [reflexivity| | |].
  - rewrite <- app_assoc, IH, rev_app_distr. cbn [rev app lex].
    assert (E : N.eqb c c_bslash = false /\ N.eqb c c_quote = false).
    { split; now apply N.eqb_neq. }
    destruct E as [-> ->]. reflexivity.
  - rewrite <- app_assoc, IH, rev_app_distr. cbn [rev app lex].
    replace (N.eqb c_bslash c_bslash) with true by reflexivity. reflexivity.
  - rewrite <- !app_assoc, IH, rev_app_distr. cbn [rev app lex].
    replace (N.eqb c_bslash c_bslash) with true by reflexivity.
    cbn [lex]. replace (N.eqb c_lbrace c_bslash) with false by reflexivity.
    replace (N.eqb c_lbrace c_quote) with false by reflexivity.
    assert (A : forall h acc x, Forall (fun c => is_ascii_hexdigit c = true) h ->
      lex (InString false) acc (h ++ x) = lex (InString false) (rev h ++ acc) x).
    { clear. intros h acc x H. revert acc. induction H as [|c h Hc _ IH]; intros acc; [reflexivity|].
      cbn [app lex].
      assert (E : N.eqb c c_bslash = false /\ N.eqb c c_quote = false).
      { split; apply N.eqb_neq; intros ->; discriminate. }
      destruct E as [-> ->]. rewrite IH. cbn [rev]. now rewrite <- app_assoc. }
    rewrite A by exact Hh. cbn [app lex].
    replace (N.eqb c_rbrace c_bslash) with false by reflexivity.
    replace (N.eqb c_rbrace c_quote) with false by reflexivity.
    f_equal. rewrite !rev_app_distr. cbn [rev app]. rewrite <- !app_assoc. reflexivity.
Qed.

Lemma lex_block_body m : CommentBody m ->
  forall n acc x, lex (InBlock n) acc (m ++ T ";)" ++ x) = lex (InBlock n) (rev m ++ acc) (T ";)" ++ x).
Proof.
  induction 1 as [|c m Hd Hm IH|a b Ha IHa Hb IHb]; intros n acc x; [reflexivity| |].
  - cbn [app lex].
    destruct (m ++ T ";)" ++ x) as [|c2 r2] eqn:E; [destruct m; discriminate|].
    assert (D1 : N.eqb c c_lparen && N.eqb c2 c_semi = false).
    { destruct (N.eqb_spec c c_lparen) as [->|]; [|reflexivity].
      destruct (N.eqb_spec c2 c_semi) as [->|]; [|reflexivity]. exfalso.
      destruct m as [|c3 m]; [|injection E as -> _].
      - apply (Hd (T "(;") (T ")")); [now left|reflexivity].
      - apply (Hd (T "(;") (m ++ T ";)")); [now left|reflexivity]. }
    assert (D2 : N.eqb c c_semi && N.eqb c2 c_rparen = false).
    { destruct (N.eqb_spec c c_semi) as [->|]; [|reflexivity].
      destruct (N.eqb_spec c2 c_rparen) as [->|]; [|reflexivity]. exfalso.
      destruct m as [|c3 m].
      - discriminate E.
      - injection E as -> _.
        apply (Hd (T ";)") (m ++ T ";)")); [right; now left|reflexivity]. }
    rewrite D1, D2, <- E, IH. cbn [rev]. now rewrite <- app_assoc.
  - rewrite <- !app_assoc.
    assert (O : forall acc y, lex (InBlock n) acc (T "(;" ++ y) = lex (InBlock (S n)) (rev (T "(;") ++ acc) y)
      by reflexivity.
    rewrite O, IHa.
    assert (C : forall acc y, lex (InBlock (S n)) acc (T ";)" ++ y) = lex (InBlock n) (rev (T ";)") ++ acc) y)
      by reflexivity.
    rewrite C, IHb. f_equal. rewrite !rev_app_distr, <- !app_assoc. reflexivity.
Qed.

Lemma lex_line r x : Forall (fun c => c <> c_lf /\ c <> c_cr) r ->
  forall acc, lex InLine acc (r ++ x) = lex InLine (rev r ++ acc) x.
Proof.
  induction 1 as [|c r [H1 H2] _ IH]; intros acc; [reflexivity|]. cbn [app lex].
  apply N.eqb_neq in H1, H2. rewrite H1, H2. cbn [orb]. rewrite IH. cbn [rev]. now rewrite <- app_assoc.
Qed.

(** The first character of what is printed. *)
Lemma cls_first t u (c : char) : LexOK t -> t = c :: u ->
  match cls_of t with
  | KAtom => is_atom c = true
  | KLine => c = c_semi
  | _ => is_atom c = false /\ c <> c_semi
  end.
Proof.
  intros H ->. unfold LexOK in H. unfold cls_of in H |- *.
  destruct (N.eqb_spec c c_quote) as [E|]; [subst c; split; [reflexivity|discriminate]|].
  destruct (N.eqb_spec c c_rparen) as [E|]; [subst c; split; [reflexivity|discriminate]|].
  destruct (N.eqb_spec c c_semi) as [E|]; [exact E|].
  destruct (N.eqb_spec c c_lparen) as [E|].
  - subst c. destruct u; split; (reflexivity || discriminate).
  - destruct H as [_ H]. now inversion H.
Qed.
Lemma LexOK_ne t : LexOK t -> t <> [].
Proof. intros H ->. destruct H as [H _]. congruence. Qed.

Definition first_ok (l : list piece) (x : text) : Prop :=
  match l with
  | [] => x = []
  | PN :: _ => exists c r, x = c :: r /\ In c [c_lf; c_cr]
  | PS :: _ => exists c r, x = c :: r /\ is_blank c = true
  | PT t :: _ => exists c r, x = c :: r /\
      match cls_of t with
      | KAtom => is_atom c = true
      | KLine => c = c_semi
      | _ => is_atom c = false /\ c <> c_semi
      end
  end.
Lemma rend_first l x : okp l -> Rend l x -> first_ok l x.
Proof.
  intros Ho H. destruct H as [|t l x H|w l x Hw Hbw H|c w l x Hc _ Hw H]; cbn [first_ok].
  - reflexivity.
  - destruct Ho as (Ho & _). destruct t as [|c t]; [exfalso; now apply (LexOK_ne [])|].
    exists c, (t ++ x). split; [reflexivity|]. eapply cls_first; eauto.
  - destruct w as [|c w]; [congruence|]. inversion Hbw; subst. exists c, (w ++ x). auto.
  - eauto.
Qed.

Theorem lex_pieces l x : okp l -> Rend l x -> lexemes x = texts l.
Proof.
  intros Ho H. induction H as [|t l x H IH|w l x Hw Hbw H IH|c w l x Hc _ Hw H IH]; unfold lexemes in *; cbn [texts].
  - reflexivity.
  - destruct Ho as (Ht & Ha & Ho). specialize (IH Ho). pose proof (rend_first _ _ Ho H) as Hf.
    unfold LexOK in Ht. rewrite <- IH.
    destruct (cls_of t) eqn:Ec.
    + (* atom *)
      destruct Ht as [Hne Ht]. rewrite lex_atoms by exact Ht. rewrite app_nil_r, lex_flush.
      * unfold flush. destruct (rev t) eqn:Er.
        -- apply (f_equal (@rev _)) in Er. rewrite rev_involutive in Er. cbn in Er. congruence.
        -- rewrite <- Er, rev_involutive. reflexivity.
      * destruct l as [|[u| |] l]; cbn [first_ok] in Hf.
        -- subst x. exact I.
        -- destruct Hf as (c & r & -> & Hf). destruct Ha as (_ & Ha & _). rewrite Ec in Ha. specialize (Ha eq_refl).
           destruct (cls_of u); try apply Hf; [congruence|]. subst c. reflexivity.
        -- destruct Hf as (c & r & -> & Hf). unfold is_atom. now rewrite Hf.
        -- destruct Hf as (c & r & -> & [<-|[<-|[]]]); reflexivity.
    + (* opening parenthesis *)
      assert (t = T "(") as ->.
      { revert Ec. clear. destruct t as [|c r]; [discriminate|]. unfold cls_of.
        destruct (N.eqb c c_quote); [discriminate|]. destruct (N.eqb c c_rparen); [discriminate|].
        destruct (N.eqb c c_semi); [discriminate|].
        destruct (N.eqb_spec c c_lparen) as [->|]; [|discriminate]. destruct r; [reflexivity|discriminate]. }
      change (T "(") with [c_lparen]. cbn [app lex].
      change (is_blank c_lparen) with false. change (N.eqb c_lparen c_quote) with false.
      change (N.eqb c_lparen c_lparen) with true. cbn iota. cbn [flush app].
      destruct x as [|c r]; [reflexivity|].
      destruct (N.eqb_spec c c_semi) as [->|]; [|reflexivity]. exfalso.
      destruct l as [|[u| |] l]; cbn [first_ok] in Hf.
      * discriminate.
      * destruct Hf as (c & r' & E & Hf). injection E as <- <-. destruct Ha as (_ & _ & Ha).
        specialize (Ha eq_refl).
        destruct (cls_of u); congruence || (now destruct Hf) || discriminate.
      * destruct Hf as (c & r' & E & Hf). injection E as <- <-. discriminate.
      * destruct Hf as (c & r' & E & [<-|[<-|[]]]); discriminate.
    + (* closing parenthesis *)
      rewrite Ht. reflexivity.
    + (* string *)
      destruct Ht as (b & Hb & ->). rewrite <- !app_assoc. change ([c_quote] ++ b ++ [c_quote] ++ x) with (c_quote :: b ++ [c_quote] ++ x).
      cbn [lex]. change (is_blank c_quote) with false. change (N.eqb c_quote c_quote) with true. cbn iota.
      cbn [flush app]. rewrite (lex_str_body b Hb [c_quote] (c_quote :: x)). cbn [lex].
      change (N.eqb c_quote c_bslash) with false. change (N.eqb c_quote c_quote) with true. cbn iota.
      f_equal. cbn [rev]. rewrite rev_app_distr, rev_involutive. reflexivity.
    + (* line comment *)
      destruct Ht as (r & -> & Hr). rewrite <- app_assoc.
      change (lex Out [] (T ";;" ++ r ++ x)) with (lex InLine (rev (T ";;")) (r ++ x)).
      rewrite lex_line by exact Hr.
      assert (E : rev (rev r ++ rev (T ";;")) = T ";;" ++ r) by now rewrite rev_app_distr, !rev_involutive.
      destruct l as [|[u| |] l]; cbn [first_ok] in Hf; cbn [adj] in Ha.
      * subst x. cbn [lex]. unfold flush. destruct (rev r ++ rev (T ";;")) eqn:E1.
        { apply app_eq_nil in E1 as [_ E1]. discriminate. }
        rewrite E. reflexivity.
      * exfalso. destruct Ha as [Ha _]. exact (Ha Ec).
      * exfalso. exact (Ha Ec).
      * destruct Hf as (c & r' & -> & Hc). cbn [lex].
        assert (B : (N.eqb c c_lf || N.eqb c c_cr) = true) by (destruct Hc as [<-|[<-|[]]]; reflexivity).
        assert (B2 : is_blank c = true) by (destruct Hc as [<-|[<-|[]]]; reflexivity).
        rewrite B, B2, E. reflexivity.
    + (* block comment *)
      destruct Ht as (m & -> & Hm). rewrite <- !app_assoc.
      change (lex Out [] (T "(;" ++ m ++ T ";)" ++ x)) with (lex (InBlock 0) (rev (T "(;")) (m ++ T ";)" ++ x)).
      rewrite lex_block_body by exact Hm.
      change (lex (InBlock 0) (rev m ++ rev (T "(;")) (T ";)" ++ x))
        with (rev (rev (T ";)") ++ rev m ++ rev (T "(;")) :: lex Out [] x).
      f_equal. rewrite !rev_app_distr, !rev_involutive, <- app_assoc. reflexivity.
  - rewrite lex_blank by exact Hbw. exact (IH Ho).
  - cbn [lex]. assert (B2 : is_blank c = true) by (destruct Hc as [<-|[<-|[]]]; reflexivity).
    rewrite B2. cbn [flush app]. rewrite lex_blank by exact Hw. exact (IH Ho).
Qed.
