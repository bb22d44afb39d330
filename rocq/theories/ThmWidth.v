(** Property C58, width: a line of formatted text is longer than the width
    only if there is no place in it where a new line may start. *)

From Coq Require Import String List NArith Bool Arith Lia.
From Verif Require Import Text Kind Green SpecParser SpecSyntax Lexer LexerFacts Winnow Grammar Sem Lossless Total
  Bounds Lang TokForm Shape ThmParser ThmSyntax Red LineIndex Cursor Doc Ast Nav NavSpec NavFacts SpecAction Action ThmAction
  SpecFormat Format FmtLang FmtPieces FmtSteps FmtTrivia FmtRun FmtNode FmtTree FmtDoc FmtParse FmtRequest ThmFormat
  ThmReparse FmtEmit FmtPlain FmtAgain ThmAgain SpecLayout FmtLayout ThmLayout.
From Verif Require SpecComplete ThmComplete.
Import ListNotations.
Local Open Scope list_scope.

(** ** Specification *)

(** The lines of a text. *)
Fixpoint split_lines (t : text) : list text :=
  match t with
  | [] => [[]]
  | c :: r => if N.eqb c c_lf then [] :: split_lines r
              else match split_lines r with x :: xs => (c :: x) :: xs | [] => [[c]] end
  end.
(** Words and blanks. *)
Definition solid (p : lpiece) : bool := match p with Word _ | Blank => true | _ => false end.
Definition written (ps : list lpiece) : text :=
  concat (map (fun p => match p with Word t => t | _ => T " " end) ps).
(** Where a line starts, and what it is indented by. *)
Inductive LineStart (ind : nat -> text) : list lpiece -> text -> Prop :=
| LS_first : LineStart ind [] []
| LS_line l n : LineStart ind (l ++ [Line n]) (ind n)
| LS_break l n : LineStart ind (l ++ [BlankOrLine n]) (ind n)
| LS_empty l : LineStart ind (l ++ [EmptyLine]) [].
(** [Stretch ind ps t]: the text [t] is that of pieces of [ps] from the start
    of a line up to the next place where a line may or must end. *)
Definition Stretch (ind : nat -> text) (ps : list lpiece) (t : text) : Prop :=
  exists before mid after i, ps = before ++ mid ++ after /\ LineStart ind before i /\ forallb solid mid = true
    /\ match after with p :: _ => solid p = false | [] => True end
    /\ t = i ++ written mid.
(** A line that, but for blanks at its end, is not wider than [width] or has
    no place to break. *)
Definition LineFits (width : nat) (ind : nat -> text) (ps : list lpiece) (line : text) : Prop :=
  exists t k, line = t ++ repeat c_space k /\ (tlen t <= width \/ Stretch ind ps t).

(** ** Proof *)

Lemma split_end x : ~ In c_lf x -> split_lines x = [x].
Proof.
  induction x as [|c x IH]; intros H; [reflexivity|]. cbn [split_lines]. destruct (N.eqb c c_lf) eqn:E.
  - apply N.eqb_eq in E. subst c. exfalso. apply H. now left.
  - rewrite IH; [reflexivity|]. intros X. apply H. now right.
Qed.
Lemma split_line x y : ~ In c_lf x -> split_lines (x ++ c_lf :: y) = x :: split_lines y.
Proof.
  induction x as [|c x IH]; intros H; [reflexivity|]. cbn [app split_lines]. destruct (N.eqb c c_lf) eqn:E.
  - apply N.eqb_eq in E. subst c. exfalso. apply H. now left.
  - rewrite IH; [reflexivity|]. intros X. apply H. now right.
Qed.
Lemma written_snoc ps p : written (ps ++ [p]) = written ps ++ match p with Word t => t | _ => T " " end.
Proof. unfold written. rewrite map_app, concat_app. cbn [map concat]. now rewrite app_nil_r. Qed.
Lemma solid_snoc ps p : forallb solid ps = true -> solid p = true -> forallb solid (ps ++ [p]) = true.
Proof. intros A B. rewrite forallb_app, A. cbn. now rewrite B. Qed.
Lemma tlen_blanks k : tlen (repeat c_space k) = k.
Proof. induction k; [reflexivity|]. cbn [repeat tlen]. rewrite IHk. reflexivity. Qed.
Lemma tlen_one c : utf8_len c = 1 -> tlen [c] = 1.
Proof. intros H. cbn. lia. Qed.

Section Width.
  Variables (width : nat) (ind : nat -> text) (ps : list lpiece).
  Hypothesis Hw : forall t, In (Word t) ps -> ~ In c_lf t.
  Hypothesis Hi : forall n, ~ In c_lf (ind n) /\ tlen (ind n) <= n.

  (** The current line: it has no place to break yet, or what comes next
      fits. *)
  Definition Single (done : list lpiece) (cur : text) : Prop :=
    exists b mid i, done = b ++ mid /\ LineStart ind b i /\ forallb solid mid = true /\ cur = i ++ written mid.
  Definition LineState (done l : list lpiece) (cur : text) (col : nat) : Prop :=
    Single done cur
    \/ (room width col l = true
        /\ exists t k, cur = t ++ repeat c_space k /\ (tlen t <= width \/ Stretch ind ps t)).

  Lemma single_start done i : LineStart ind done i -> Single done i.
  Proof. intros H. exists done, [], i. rewrite !app_nil_r. auto. Qed.
  Lemma single_end done l cur : ps = done ++ l -> match l with p :: _ => solid p = false | [] => True end ->
    Single done cur -> Stretch ind ps cur.
  Proof.
    intros E H (b & mid & i & -> & S & M & C). exists b, mid, l, i. rewrite <- app_assoc in E. auto.
  Qed.
  Lemma state_end done l cur col : ps = done ++ l -> match l with p :: _ => solid p = false | [] => True end ->
    LineState done l cur col -> LineFits width ind ps cur.
  Proof.
    intros E H [S|(_ & t & k & C & D)]; [|exists t, k; auto]. exists cur, 0. cbn [repeat]. rewrite app_nil_r. split; [reflexivity|].
    right. eapply single_end; eauto.
  Qed.

  Lemma width_rec : forall l done cur col, ps = done ++ l -> ~ In c_lf cur -> tlen cur <= col -> LineState done l cur col ->
    Forall (LineFits width ind ps) (split_lines (cur ++ text_of width [c_lf] ind col l)).
  Proof.
    assert (Hb : ~ In c_lf (T " ")) by (intros [X|[]]; discriminate X).
    induction l as [|p l IH]; intros done cur col E N L St.
    - cbn [text_of]. rewrite app_nil_r, split_end by exact N. repeat constructor. eapply state_end; eauto. exact I.
    - assert (E' : ps = (done ++ [p]) ++ l) by now rewrite <- app_assoc.
      destruct p as [t| |n| |n]; cbn [text_of].
      + rewrite app_assoc. apply (IH (done ++ [Word t])); [exact E'| | |].
        * intros X. apply in_app_or in X as [X|X]; [now apply N|]. revert X. apply Hw. rewrite E. apply in_or_app. right. now left.
        * rewrite tlen_app. lia.
        * destruct St as [(b & mid & i & -> & S & M & ->)|(R & t0 & k & C & D)].
          -- left. exists b, (mid ++ [Word t]), i. rewrite <- !app_assoc, written_snoc.
             repeat split; auto. now apply solid_snoc.
          -- right. cbn [room] in R. apply andb_prop in R as [R1 R2]. apply Nat.leb_le in R1. split; [exact R2|].
             exists (cur ++ t), 0. cbn [repeat]. rewrite app_nil_r. split; [reflexivity|]. left. rewrite tlen_app. lia.
      + rewrite app_assoc. apply (IH (done ++ [Blank])); [exact E'| | |].
        * intros X. apply in_app_or in X as [X|X]; [now apply N|now apply Hb].
        * rewrite tlen_app. change (tlen (T " ")) with 1. lia.
        * destruct St as [(b & mid & i & -> & S & M & ->)|(R & t0 & k & C & D)].
          -- left. exists b, (mid ++ [Blank]), i. rewrite <- !app_assoc, written_snoc.
             repeat split; auto. now apply solid_snoc.
          -- right. cbn [room] in R. apply andb_prop in R as [R1 R2]. apply Nat.leb_le in R1. split; [exact R2|].
             exists (cur ++ T " "), 0. cbn [repeat]. rewrite app_nil_r. split; [reflexivity|]. left. rewrite tlen_app.
             change (tlen (T " ")) with 1. lia.
      + cbn [app]. rewrite split_line by exact N. constructor; [eapply state_end; [exact E|exact eq_refl|exact St]|].
        apply (IH (done ++ [Line n])); [exact E'|apply Hi|apply Hi|]. left. apply single_start. constructor.
      + cbn [app]. rewrite split_line by exact N. constructor; [eapply state_end; [exact E|exact eq_refl|exact St]|].
        apply (IH (done ++ [EmptyLine]) []); [exact E'|intros []|cbn; lia|]. left. apply single_start. constructor.
      + destruct (room width (S col) l) eqn:Rm.
        * rewrite app_assoc. apply (IH (done ++ [BlankOrLine n])); [exact E'| | |].
          -- intros X. apply in_app_or in X as [X|X]; [now apply N|now apply Hb].
          -- rewrite tlen_app. change (tlen (T " ")) with 1. lia.
          -- right. split; [exact Rm|]. destruct St as [St|(_ & t & k & C & D)].
             ++ exists cur, 1. split; [reflexivity|]. right. eapply single_end; [exact E|exact eq_refl|exact St].
             ++ exists t, (S k). split; [|exact D]. rewrite C, <- app_assoc. f_equal.
                change (T " ") with (repeat c_space 1). rewrite <- repeat_app. f_equal. lia.
        * cbn [app]. rewrite split_line by exact N. constructor; [eapply state_end; [exact E|exact eq_refl|exact St]|].
          apply (IH (done ++ [BlankOrLine n])); [exact E'|apply Hi|apply Hi|]. left. apply single_start. constructor.
  Qed.
  Lemma width_text : Forall (LineFits width ind ps) (split_lines (text_of width [c_lf] ind 0 ps)).
  Proof. apply (width_rec ps [] [] 0); [reflexivity|intros []|cbn; lia|]. left. apply single_start. constructor. Qed.
End Width.

(** *** The words of a layout *)

Definition flat_word (w : text) : Prop := ~ In c_lf w.
Lemma pad_flat t : flat_word (pad t).
Proof. unfold pad. destruct (blank_first t); intros X; [destruct X|]. destruct X as [X|[]]; discriminate X. Qed.
Lemma comment_flat spaced k t : flat_word t -> flat_word (comment_text spaced k t).
Proof.
  intros H. unfold comment_text. destruct spaced; [|exact H].
  assert (A : forall u v, flat_word u -> flat_word v -> flat_word (u ++ v)) by (intros u v Hu Hv X; apply in_app_or in X as [X|X]; auto).
  assert (S : flat_word (skipn 2 t)) by (intros X; apply H; rewrite <- (firstn_skipn 2 t); apply in_or_app; now right).
  assert (B : flat_word (firstn (length t - 4) (skipn 2 t))).
  { intros X. apply S. rewrite <- (firstn_skipn (length t - 4) (skipn 2 t)). apply in_or_app. now left. }
  assert (C1 : flat_word (T ";;")) by (intros X; repeat (destruct X as [X|X]; [discriminate X|]); exact X).
  assert (C2 : flat_word (T "(;")) by (intros X; repeat (destruct X as [X|X]; [discriminate X|]); exact X).
  assert (C3 : flat_word (T ";)")) by (intros X; repeat (destruct X as [X|X]; [discriminate X|]); exact X).
  assert (D1 : forall r, flat_word r -> flat_word (match r with [] => t | _ => T ";;" ++ pad r ++ r end))
    by (intros [|c r] Hr; [exact H|]; repeat apply A; auto; apply pad_flat).
  assert (D2 : forall r, flat_word r -> flat_word (match r with [] => t | _ => T "(;" ++ pad r ++ r ++ pad (rev r) ++ T ";)" end))
    by (intros [|c r] Hr; [exact H|]; repeat apply A; auto; apply pad_flat).
  destruct k; auto.
Qed.
Definition FlatPieces (l : list lpiece) : Prop := forall t, In (Word t) l -> flat_word t.
Lemma flatp_app a b : FlatPieces a -> FlatPieces b -> FlatPieces (a ++ b).
Proof. intros A B t X. apply in_app_or in X as [X|X]; auto. Qed.
Lemma flatp_flat_map {A} (f : A -> list lpiece) l : (forall x, In x l -> FlatPieces (f x)) -> FlatPieces (flat_map f l).
Proof. intros H t X. apply in_flat_map in X as (x & Hx & X). exact (H x Hx t X). Qed.
Lemma flatp_gap step n g : FlatPieces (gap_pieces step n g).
Proof. intros t X. destruct g; cbn in X; intuition discriminate. Qed.
(** Only white space has line feeds. *)
Definition FlatTree (g : green) : Prop := forall k t, In (k, t) (gtokens g) -> k <> WHITESPACE -> ~ In c_lf t.
Lemma flatt_in k cs c : FlatTree (Node k cs) -> In c cs -> FlatTree c.
Proof. intros H Hc k' t X. apply H. cbn [gtokens]. apply in_concat. exists (gtokens c). split; [now apply in_map|exact X]. Qed.
Lemma flatp_trivia spaced n g : FlatTree g -> FlatPieces (trivia_pieces spaced n g).
Proof.
  intros H t X. destruct g as [k u|k cs]; [|destruct X].
  assert (E : k = WHITESPACE \/ trivia_pieces spaced n (Tok k u) = [Word (comment_text spaced k u)]) by (destruct k; auto).
  destruct E as [->|E].
  - cbn in X. destruct (lines u) as [|[|]]; cbn in X; intuition discriminate.
  - destruct (kind_eqb k WHITESPACE) eqn:K.
    + apply kind_eqb_eq in K. subst k. cbn in X. destruct (lines u) as [|[|]]; cbn in X; intuition discriminate.
    + rewrite E in X. destruct X as [X|[]]. injection X as <-. apply comment_flat. apply (H k u); [now left|].
      intros ->. discriminate K.
Qed.
Lemma from_comment_in l x : In x (from_comment l) -> In x l.
Proof.
  induction l as [|g l IH]; [auto|]. intros X. cbn [from_comment] in X.
  destruct g as [k t|k cs]; [destruct k|]; try exact X. right. auto.
Qed.
Lemma flatp_between spaced n prev ts : (forall g, In g ts -> FlatTree g) -> FlatPieces (between spaced n prev ts).
Proof.
  intros H. unfold between. destruct prev as [k t|k cs].
  - intros w [X|X]; [discriminate|]. revert w X. apply flatp_flat_map. intros x Hx. apply flatp_trivia, H. now apply from_comment_in.
  - apply flatp_app.
    + intros w X. destruct ts as [|g ts]; [destruct X|]. destruct (a_comment g); [|destruct X]. destruct X as [X|[]]. discriminate X.
    + apply flatp_flat_map. intros x Hx. now apply flatp_trivia, H.
Qed.
Section Rows.
  Variables (step : nat) (spaced : bool).
  Lemma flatp_row k par n : forall l before ts,
    (forall g, In g ts -> FlatTree g) -> (forall g, In g l -> FlatTree g) ->
    (forall c m, In c l -> significant c = true -> FlatPieces (lay step spaced m c)) ->
    FlatPieces (lay_row step spaced (lay step spaced) k par n before ts l).
  Proof.
    induction l as [|c l IH]; intros before ts Ht Hl Hc; cbn [lay_row]; [intros w []|].
    destruct (significant c) eqn:Sc.
    - apply flatp_app; [|apply flatp_app].
      + unfold in_front. destruct before as [|prev before]; [apply flatp_gap|].
        destruct (kept_between prev ts); [|apply flatp_gap]. destruct dropped_before; [intros w []|]. now apply flatp_between.
      + apply Hc; [now left|exact Sc].
      + apply IH; [intros g []|intros g Hg; apply Hl; now right|intros d m Hd; apply Hc; now right].
    - apply IH.
      + intros g Hg. apply in_app_or in Hg as [Hg|[<-|[]]]; [now apply Ht|apply Hl; now left].
      + intros g Hg. apply Hl. now right.
      + intros d m Hd. apply Hc. now right.
  Qed.
  Lemma flatp_lay : forall g n, significant g = true -> FlatTree g -> FlatPieces (lay step spaced n g).
  Proof.
    induction g as [k t|k cs IH] using green_ind'; intros n Sg F.
    - intros w [X|[]]. injection X as <-. apply (F k t); [now left|]. intros ->. discriminate Sg.
    - change (lay step spaced n (Node k cs)) with (lay_row step spaced (lay step spaced) k (token_in L_PAREN cs) n [] [] cs).
      rewrite Forall_forall in IH. apply flatp_row; [intros g []| |].
      + intros g Hg. eapply flatt_in; eauto.
      + intros c m Hc Sc. apply IH; auto. eapply flatt_in; eauto.
  Qed.
  Lemma flatp_modules : forall l first, (forall g, In g l -> FlatTree g) -> FlatPieces (lay_modules step spaced first l).
  Proof.
    induction l as [|g l IH]; intros first H; cbn [lay_modules]; [intros w [X|[]]; discriminate X|].
    apply flatp_app; [|apply IH; intros x Hx; apply H; now right].
    assert (Fg : FlatTree g) by (apply H; now left).
    destruct g as [k t|k cs]; [|now apply flatp_lay].
    pose proof (flatp_trivia spaced 0 _ Fg) as Q.
    destruct k; try exact Q. destruct first; [intros w []|]. destruct l; [intros w []|exact Q].
  Qed.
  Lemma flatp_document tree : FlatTree tree -> FlatPieces (lay_document step spaced tree).
  Proof.
    intros H. destruct tree as [k t|k cs]; [intros w []|]. apply flatp_modules. intros g Hg. eapply flatt_in; eauto.
  Qed.
End Rows.

Lemma blanks_ok n : ~ In c_lf (blanks n) /\ tlen (blanks n) <= n.
Proof.
  split; [|unfold blanks; rewrite tlen_blanks; lia]. intros X. apply repeat_spec in X. discriminate X.
Qed.
Lemma tabs_ok tab n : tab <> 0 -> ~ In c_lf (tabs_blanks tab n) /\ tlen (tabs_blanks tab n) <= n.
Proof.
  intros Ht. unfold tabs_blanks. split.
  - intros X. apply in_app_or in X as [X|X]; apply repeat_spec in X; discriminate X.
  - rewrite tlen_app, tlen_blanks. assert (E : forall k, tlen (repeat c_tab k) = k) by (induction k as [|k IHk]; [reflexivity|]; cbn [repeat tlen]; rewrite IHk; reflexivity).
    rewrite E. pose proof (Nat.div_mod n tab Ht) as X.
    assert (Nat.div n tab <= tab * Nat.div n tab) by (destruct tab; [congruence|]; cbn; lia). lia.
Qed.

(** Formatted with line feeds at the ends of lines, every line of the text is
    at most [width] wide or has no place to break. *)
Theorem C58_width dbg src tree s width :
  parse dbg src = Parsed tree [] -> (forall t, ~ In (ERROR, t) (gtokens tree)) -> Ordinary tree ->
  StringsClosed tree -> NoDirective (directive (f_options s)) tree -> Measures s width ->
  f_crlf s = false -> (f_tabs s = true -> indent_width (f_options s) <> 0) -> FlatTree tree ->
  Forall (LineFits width (indentation_of s) (lay_document (indent_width (f_options s)) (fix_comments (f_options s)) tree))
    (split_lines (format s tree)).
Proof.
  intros HP H1 H2 H3 H4 Hm Hc Ht Hl. rewrite (C58_layout dbg src tree s width HP H1 H2 H3 H4 Hm).
  unfold new_line_of. rewrite Hc. apply width_text.
  - now apply flatp_document.
  - intros n. unfold indentation_of. destruct (f_tabs s) eqn:E; [now apply tabs_ok, Ht|apply blanks_ok].
Qed.
Print Assumptions C58_width.

(** A document with lines that were broken, and one line longer than 60 bytes
    that could not be. *)
Definition sixty : settings := mk_settings (mk_options false (Text.T "fmt-ignore") 4) true false (rest_fits tlen 60) tlen.
Definition flat_tree (g : green) : bool :=
  forallb (fun p => kind_eqb (fst p) WHITESPACE || negb (existsb (N.eqb c_lf) (snd p))) (gtokens g).
Lemma flat_tree_ok g : flat_tree g = true -> FlatTree g.
Proof.
  unfold flat_tree. rewrite forallb_forall. intros H k t Hin Hk X. specialize (H _ Hin). cbn [fst snd] in H.
  apply orb_prop in H as [H|H]; [apply kind_eqb_eq in H; contradiction|]. apply negb_true_iff in H.
  enough (E : existsb (N.eqb c_lf) t = true) by congruence. apply existsb_exists. exists c_lf. split; [exact X|reflexivity].
Qed.
Example C58_width_example :
  Laid long_src sixty 60 long_laid /\ Measures sixty 60 /\ f_crlf sixty = false /\ indent_width (f_options sixty) <> 0
  /\ FlatTree (tree_of long_src) /\ map tlen (split_lines long_laid) = [7; 12; 72; 52; 19; 6; 9; 41; 33; 0].
Proof.
  split; [apply laid_ok; vm_compute; reflexivity|]. split; [split; reflexivity|]. split; [reflexivity|]. split; [discriminate|].
  split; [apply flat_tree_ok; vm_compute; reflexivity|]. vm_compute. reflexivity.
Qed.
(** A line that is too long although it could be broken does not fit. *)
Example C58_width_refused :
  let ps := [Word (Text.T "aaaa"); BlankOrLine 2; Word (Text.T "bbbb")] in
  ~ LineFits 6 blanks ps (Text.T "aaaa bbbb").
Proof.
  intros ps (t & k & E & H).
  assert (K : k = 0).
  { destruct k as [|k]; [reflexivity|]. exfalso. apply (f_equal (@rev N)) in E. rewrite rev_app_distr in E.
    replace (S k) with (k + 1) in E by lia. rewrite repeat_app, rev_app_distr in E. discriminate E. }
  subst k. cbn [repeat] in E. rewrite app_nil_r in E. subst t. destruct H as [H|(b & mid & r & i & E & S & M & A & W)].
  - vm_compute in H. lia.
  - unfold ps in E.
    assert (L : length (i ++ written mid) = 9) by now rewrite <- W.
    destruct S as [|l n|l n|l].
    + destruct mid as [|x [|y mid]]; [discriminate W| |].
      * injection E as <- _. discriminate W.
      * injection E as _ <- _. cbn in M. rewrite andb_false_r in M. discriminate M.
    + assert (X : In (Line n) ps) by (unfold ps; rewrite E; apply in_or_app; left; apply in_or_app; right; now left).
      destruct X as [X|[X|[X|[]]]]; discriminate X.
    + destruct l as [|x [|y l]]; try discriminate E.
      * injection E as _ <- E. destruct mid as [|z [|u mid]]; [discriminate W| |discriminate E].
        injection E as <- _. discriminate W.
      * injection E as _ _ E. destruct l as [|z l]; [discriminate E|]. injection E as _ E. destruct l; discriminate E.
    + assert (X : In EmptyLine ps) by (unfold ps; rewrite E; apply in_or_app; left; apply in_or_app; right; now left).
      destruct X as [X|[X|[X|[]]]]; discriminate X.
Qed.
