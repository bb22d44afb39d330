(** How many line breaks the formatter prints between two tokens. *)

From Coq Require Import String List NArith Bool Arith Lia.
From Verif Require Import Text Kind Green SpecParser SpecSyntax SpecFormat Format FmtLang FmtPieces FmtNode Respace Relex.
From Verif Require SpecComplete.
Import ListNotations.
Local Open Scope list_scope.

(** Pieces in which spaces and soft line breaks are kept apart. *)
Inductive fpiece : Type := FT (t : text) | FH | FS | FN.
Definition coarse (p : fpiece) : piece := match p with FT t => PT t | FH | FS => PS | FN => PN end.
Fixpoint fine (d : doc) : list fpiece :=
  match d with
  | DNil => []
  | DText t => if text_eqb t (T " ") then [FH] else [FT t]
  | DNewLine | DEmptyLine => [FN]
  | DSoft => [FS]
  | DNest _ d => fine d
  | DList l => flat_map fine l
  end.
Definition finel (l : list doc) : list fpiece := flat_map fine l.
Lemma finel_app a b : finel (a ++ b) = finel a ++ finel b.
Proof. apply flat_map_app. Qed.
Lemma coarse_fine : forall d, map coarse (fine d) = pcs d.
Proof.
  fix IH 1. intros [|t| | | |m d|l]; try reflexivity.
  - cbn [fine pcs]. destruct (text_eqb t (T " ")); reflexivity.
  - exact (IH d).
  - cbn [fine pcs]. induction l as [|d l IHl]; [reflexivity|]. cbn [flat_map]. rewrite map_app, IHl. f_equal. apply IH.
Qed.

Inductive FR : list fpiece -> text -> Prop :=
| FR_nil : FR [] []
| FR_text t l x : FR l x -> FR (FT t :: l) (t ++ x)
| FR_hard l x : FR l x -> FR (FH :: l) (T " " ++ x)
| FR_soft w l x : w <> [] -> blankt w -> count_lf w <= 1 -> FR l x -> FR (FS :: l) (w ++ x)
| FR_line c w l x : In c [c_lf; c_cr] -> (c = c_cr -> exists r, w = c_lf :: r) -> blankt w ->
    count_lf (c :: w) = 1 -> FR l x -> FR (FN :: l) (c :: w ++ x).
Lemma FR_app a b x y : FR a x -> FR b y -> FR (a ++ b) (x ++ y).
Proof.
  intros Ha Hb. induction Ha; cbn [app]; rewrite <- ?app_assoc; try (constructor; auto; fail); try exact Hb.
Qed.
Lemma FR_Rend l x : FR l x -> Rend (map coarse l) x.
Proof.
  induction 1; cbn [map coarse]; try (constructor; auto; fail).
  constructor; [discriminate| |exact IHFR]. constructor; [reflexivity|constructor].
Qed.

Lemma count_app a b : count_lf (a ++ b) = count_lf a + count_lf b.
Proof. unfold count_lf. now rewrite filter_app, app_length. Qed.
Lemma count_repeat c n : N.eqb c_lf c = false -> count_lf (repeat c n) = 0.
Proof. intros H. induction n as [|n IH]; [reflexivity|]. unfold count_lf in *. cbn [repeat filter]. now rewrite H. Qed.

Section Print.
  Variable y : layout.
  Hypothesis Hb : line_break y = [c_lf] \/ line_break y = [c_cr; c_lf].

  Lemma indentation_lines n : count_lf (indentation y n) = 0.
  Proof. unfold indentation. destruct (tabs y); rewrite ?count_app, !count_repeat; reflexivity. Qed.

  Lemma line_fr w : blankt w -> count_lf w = 0 -> FR [FN] (line_break y ++ w).
  Proof.
    intros Hw Hc. destruct Hb as [->| ->].
    - cbn [app]. rewrite <- (app_nil_r w). constructor; [now left|discriminate|exact Hw| |constructor].
      change (c_lf :: w) with ([c_lf] ++ w). rewrite count_app, Hc. reflexivity.
    - cbn [app]. rewrite <- (app_nil_r w). change (c_lf :: w ++ []) with ((c_lf :: w) ++ []).
      constructor; [right; now left|now exists w| | |constructor]; [constructor; [reflexivity|exact Hw]|].
      change (c_cr :: c_lf :: w) with ([c_cr; c_lf] ++ w). rewrite count_app, Hc. reflexivity.
  Qed.

  Lemma print_fr : forall d n rest col, FR (fine d) (fst (print_doc y d n rest col)).
  Proof.
    fix IH 1. intros d n rest col. destruct d as [|t| | | |m d|l].
    - constructor.
    - cbn [fine print_doc fst]. destruct (text_eqb t (T " ")) eqn:E.
      + apply text_eqb_eq in E as ->. rewrite <- (app_nil_r (T " ")). apply FR_hard. constructor.
      + rewrite <- (app_nil_r t) at 2. constructor. constructor.
    - cbn [fine print_doc fst]. apply line_fr; [apply indentation_blank|apply indentation_lines].
    - cbn [fine print_doc fst]. rewrite <- (app_nil_r (line_break y)). apply line_fr; [constructor|reflexivity].
    - cbn [fine print_doc]. destruct (fits y (S col) rest); cbn [fst].
      + rewrite <- (app_nil_r (T " ")). constructor; [discriminate| |apply Nat.le_0_l|constructor].
        constructor; [reflexivity|constructor].
      + rewrite <- (app_nil_r (line_break y ++ indentation y n)). constructor; [| | |constructor].
        * destruct Hb as [->| ->]; discriminate.
        * apply Forall_app. split; [|apply indentation_blank].
          destruct Hb as [->| ->]; repeat constructor.
        * rewrite count_app, indentation_lines. destruct Hb as [->| ->]; cbn; lia.
    - cbn [fine print_doc]. apply IH.
    - cbn [fine print_doc]. revert col. induction l as [|d l IHl]; intros col; [constructor|].
      cbn [flat_map].
      destruct (print_doc y d n (map (pair n) l ++ rest) col) as [t c1] eqn:E1.
      specialize (IHl c1).
      match goal with |- context [let '(t', c2) := ?e in _] => destruct e as [t' c2] eqn:E2 end.
      cbn [fst]. apply FR_app.
      + pose proof (IH d n (map (pair n) l ++ rest) col) as H. rewrite E1 in H. exact H.
      + exact IHl.
  Qed.
End Print.

(** ** Gaps *)

(** The blanks before each text, and after the last. *)
Fixpoint fgo (acc : list fpiece) (l : list fpiece) : list (list fpiece) * list fpiece :=
  match l with
  | [] => ([], acc)
  | FT _ :: r => let (gs, e) := fgo [] r in (acc :: gs, e)
  | b :: r => fgo (acc ++ [b]) r
  end.
(** The line breaks of the white space before each token, and after the last. *)
Definition more (c : option nat) (n : nat) : option nat := Some (match c with Some m => m + n | None => n end).
Fixpoint tgo (c : option nat) (ts : list (kind * text)) : list (option nat) * option nat :=
  match ts with
  | [] => ([], c)
  | p :: r => if visible p then let (gs, e) := tgo None r in (c :: gs, e) else tgo (more c (count_lf (snd p))) r
  end.

Lemma fgo_app a b : forall acc, fgo acc (a ++ b) =
  let (g1, e1) := fgo acc a in let (g2, e2) := fgo e1 b in (g1 ++ g2, e2).
Proof.
  induction a as [|[t| | |] a IH]; intros acc; cbn [app fgo].
  - destruct (fgo acc b); reflexivity.
  - rewrite IH. destruct (fgo [] a) as [g1 e1]. destruct (fgo e1 b). reflexivity.
  - apply IH.
  - apply IH.
  - apply IH.
Qed.
Lemma tgo_app a b : forall c, tgo c (a ++ b) =
  let (g1, e1) := tgo c a in let (g2, e2) := tgo e1 b in (g1 ++ g2, e2).
Proof.
  induction a as [|p a IH]; intros c; cbn [app tgo].
  - destruct (tgo c b); reflexivity.
  - destruct (visible p); [|apply IH]. rewrite IH. destruct (tgo None a) as [g1 e1]. destruct (tgo e1 b). reflexivity.
Qed.
Lemma tgo_length ts : forall c, length (fst (tgo c ts)) = length (filter visible ts).
Proof.
  induction ts as [|p ts IH]; intros c; [reflexivity|]. cbn [tgo filter]. destruct (visible p); [|apply IH].
  specialize (IH None). destruct (tgo None ts). cbn [fst length] in *. congruence.
Qed.
Lemma more_more c a b : more (more c a) b = more c (a + b).
Proof. destruct c; unfold more; f_equal; lia. Qed.

Definition is_fn (p : fpiece) : bool := match p with FN => true | _ => false end.
Definition is_fs (p : fpiece) : bool := match p with FS => true | _ => false end.
Definition lows (l : list fpiece) : nat := length (filter is_fn l).
Definition softs (l : list fpiece) : nat := length (filter is_fs l).
Definition Fit (g : list fpiece) (c : option nat) : Prop :=
  match c with
  | None => g = []
  | Some n => g <> [] /\ lows g <= n <= lows g + softs g
  end.
Lemma Fit_more g c b n : Fit g c -> Fit [b] (Some n) -> Fit (g ++ [b]) (more c n).
Proof.
  unfold Fit, more, lows, softs. intros H [_ H2]. split; [now destruct g|]. rewrite !filter_app, !app_length.
  destruct c as [m|]; [|subst g; cbn [length app filter] in *; exact H2]. destruct H as [_ H]. lia.
Qed.
Definition Fits (x : list (list fpiece) * list fpiece) (y : list (option nat) * option nat) : Prop :=
  Forall2 Fit (fst x) (fst y) /\ Fit (snd x) (snd y).

Lemma add_blank2 w ts x : w <> [] -> blankt w -> SpecComplete.texts ts = x -> SpecComplete.Separated ts ->
  exists ts', SpecComplete.texts ts' = w ++ x /\ filter visible ts' = filter visible ts /\ SpecComplete.Separated ts'
    /\ forall c, tgo c ts' = tgo (more c (count_lf w)) ts.
Proof.
  intros Hw Hb Hx Hs. destruct ts as [|[k t] ts].
  - exists [(WHITESPACE, w)]. subst x. split; [reflexivity|]. split; [reflexivity|]. split; [|reflexivity].
    destruct (add_blank w [] [] Hw Hb eq_refl I) as (ts' & A & B & C).
    destruct ts' as [|[k' t'] ts']; [cbn in A; rewrite app_nil_r in A; congruence|].
    cbn [filter] in B. unfold visible at 1 in B. cbn [fst] in B.
    destruct (kind_eqb k' WHITESPACE) eqn:Ek; [|discriminate B]. apply kind_eqb_eq in Ek. subst k'. cbn [negb] in B.
    destruct ts' as [|[k2 t2] ts'].
    + unfold SpecComplete.texts in A. cbn [map snd concat] in A. rewrite !app_nil_r in A. now subst t'.
    + exfalso. cbn [filter] in B. unfold visible at 1 in B. cbn [fst] in B.
      destruct (kind_eqb k2 WHITESPACE) eqn:Ek; [|discriminate B]. apply kind_eqb_eq in Ek. subst k2.
      destruct C as (_ & C & ((C1 & C3) & _) & _). destruct t2 as [|c t2]; [congruence|]. inversion C3; subst.
      apply (C c (t2 ++ SpecComplete.texts ts')); [reflexivity|assumption].
  - destruct (kind_eqb k WHITESPACE) eqn:Ek.
    + apply kind_eqb_eq in Ek. subst k. destruct Hs as (((Hn & Hf) & _) & Hl & Hs).
      assert (Bl : Forall (fun c => In c (T " " ++ [c_tab; c_lf; c_cr])) w).
      { eapply Forall_impl; [|exact Hb]. intros c Hc. unfold is_blank in Hc.
        apply orb_prop in Hc as [Hc|Hc]; [apply orb_prop in Hc as [Hc|Hc]; [apply orb_prop in Hc as [Hc|Hc]|]|];
          apply N.eqb_eq in Hc; subst c; cbn; tauto. }
      exists ((WHITESPACE, w ++ t) :: ts). split; [|split; [reflexivity|split]].
      * subst x. unfold SpecComplete.texts. cbn [map snd concat]. now rewrite app_assoc.
      * split; [|split; [exact Hl|exact Hs]]. split; [|exact I]. split; [now destruct w|]. now apply Forall_app.
      * intros c. cbn [tgo visible fst snd]. replace (kind_eqb WHITESPACE WHITESPACE) with true by reflexivity.
        cbn [negb]. now rewrite more_more, count_app.
    + assert (Hk : k <> WHITESPACE) by (intros ->; now rewrite kind_refl in Ek).
      exists ((WHITESPACE, w) :: (k, t) :: ts).
      split; [subst x; reflexivity|]. split; [reflexivity|]. split; [|reflexivity].
      split; [split; [|exact I]|]; [split; [exact Hw|]|split; [|exact Hs]].
      * eapply Forall_impl; [|exact Hb]. intros c Hc. unfold is_blank in Hc.
        apply orb_prop in Hc as [Hc|Hc]; [apply orb_prop in Hc as [Hc|Hc]; [apply orb_prop in Hc as [Hc|Hc]|]|];
          apply N.eqb_eq in Hc; subst c; cbn; tauto.
      * destruct Hs as (Hf & _).
        intros c y E. unfold SpecComplete.texts in E. cbn [map snd concat] in E.
        destruct (lexok_first t (token_lexok _ _ Hf Hk)) as (d & r & -> & B). injection E as -> _.
        intros Hin. assert (is_blank c = true); [|congruence].
        cbn in Hin. unfold is_blank. destruct Hin as [<-|[<-|[<-|[<-|[]]]]]; reflexivity.
Qed.

Theorem relex2 l x : okp (map coarse l) -> FR l x ->
  forall ks, Forall2 SpecComplete.TokenForm ks (texts (map coarse l)) -> ~ In WHITESPACE ks ->
  exists ts, SpecComplete.texts ts = x /\ filter visible ts = combine ks (texts (map coarse l)) /\ SpecComplete.Separated ts
    /\ forall acc c, Fit acc c -> Fits (fgo acc l) (tgo c ts).
Proof.
  intros Ho Hr. induction Hr as [|t l x Hr IH|l x Hr IH|w l x Hw Hb Hc Hr IH|c w l x H1 H2 H3 H4 Hr IH]; intros ks Hks Hn;
    cbn [map coarse] in *.
  - inversion Hks; subst. exists []. repeat split; cbn; auto.
  - cbn [texts] in *. inversion Hks as [|k ? ks' ? Hf Hks']; subst. destruct Ho as (_ & Ha & Ho).
    destruct (IH Ho ks' Hks') as (ts & E1 & E2 & E3 & E4); [intros H; apply Hn; now right|].
    assert (Hk : k <> WHITESPACE) by (intros ->; apply Hn; now left).
    assert (Hv : visible (k, t) = true).
    { unfold visible. cbn [fst]. destruct (kind_eqb k WHITESPACE) eqn:Ek; [apply kind_eqb_eq in Ek; contradiction|reflexivity]. }
    exists ((k, t) :: ts). split; [|split; [|split]].
    + unfold SpecComplete.texts in *. cbn [map snd concat]. now rewrite E1.
    + cbn [filter combine]. rewrite Hv. now rewrite E2.
    + split; [exact Hf|]. split; [|exact E3]. rewrite E1. apply follows_ok with t (map coarse l); auto. now apply FR_Rend.
    + intros acc c Hfit. cbn [fgo tgo]. rewrite Hv. specialize (E4 [] None eq_refl).
      destruct (fgo [] l) as [g e], (tgo None ts) as [g' e']. destruct E4 as [A B]. split; [constructor; assumption|exact B].
  - cbn [texts] in *. destruct (IH Ho ks Hks Hn) as (ts & E1 & E2 & E3 & E4).
    destruct (add_blank2 (T " ") ts x) as (ts' & A & B & C & D); auto; [discriminate|repeat constructor|].
    exists ts'. split; [exact A|]. split; [congruence|]. split; [exact C|].
    intros acc c Hfit. rewrite D. cbn [fgo]. apply E4. apply Fit_more; [exact Hfit|]. split; [discriminate|cbn; lia].
  - cbn [texts] in *. destruct (IH Ho ks Hks Hn) as (ts & E1 & E2 & E3 & E4).
    destruct (add_blank2 w ts x) as (ts' & A & B & C & D); auto.
    exists ts'. split; [exact A|]. split; [congruence|]. split; [exact C|].
    intros acc c Hfit. rewrite D. cbn [fgo]. apply E4. apply Fit_more; [exact Hfit|]. split; [discriminate|cbn; lia].
  - cbn [texts] in *. destruct (IH Ho ks Hks Hn) as (ts & E1 & E2 & E3 & E4).
    assert (Hb : blankt (c :: w)) by (constructor; [destruct H1 as [<-|[<-|[]]]; reflexivity|exact H3]).
    destruct (add_blank2 (c :: w) ts x) as (ts' & A & B & C & D); auto; [discriminate|].
    exists ts'. split; [exact A|]. split; [congruence|]. split; [exact C|].
    intros acc c0 Hfit. rewrite D. cbn [fgo]. apply E4. apply Fit_more; [exact Hfit|]. rewrite H4. split; [discriminate|cbn; lia].
Qed.
