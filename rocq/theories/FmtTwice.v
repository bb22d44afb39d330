(** Laying out a document that has been laid out: choices that have been made
    are made again. *)

From Coq Require Import String List NArith Bool Arith Lia.
From Verif Require Import Text Kind Green SpecParser SpecSyntax SpecFormat Format FmtLang FmtPieces FmtSteps FmtTrivia FmtRun FmtNode FmtTree FmtDoc FmtEmit FmtPlain FmtFlags
  Respace Relex FmtGap ThmReparse FmtSame FmtAlike FmtTidy SpecLayout FmtLayout.
From Verif Require SpecComplete.
Import ListNotations.
Local Open Scope list_scope.
Notation gmore := FmtGap.more.

(** ** Choices *)

(** What a piece may become. *)
Definition Chosen (p p' : lpiece) : Prop :=
  match p with BlankOrLine n => p' = Blank \/ p' = Line n | _ => p' = p end.

Section Width.
  Variable width : nat.

  (** The choices that are made when the line is [col] long. *)
  Fixpoint choose (col : nat) (l : list lpiece) : list lpiece :=
    match l with
    | [] => []
    | Word t :: r => Word t :: choose (col + tlen t) r
    | Blank :: r => Blank :: choose (S col) r
    | Line n :: r => Line n :: choose n r
    | EmptyLine :: r => EmptyLine :: choose col r
    | BlankOrLine n :: r => if room width (S col) r then Blank :: choose (S col) r else Line n :: choose n r
    end.
  Lemma choose_chosen l : forall col, Forall2 Chosen l (choose col l).
  Proof.
    induction l as [|[t| |n| |n] l IH]; intros col; cbn [choose]; try (constructor; [reflexivity|apply IH]); [constructor|].
    destruct (room width (S col) l); (constructor; [cbn; auto|apply IH]).
  Qed.

  (** [q]: some choices of [p] have been made as in [p']. *)
  Inductive Partly : list lpiece -> list lpiece -> list lpiece -> Prop :=
  | Partly_nil : Partly [] [] []
  | Partly_same p P Q P' : (forall n, p <> BlankOrLine n) -> Partly P Q P' -> Partly (p :: P) (p :: Q) (p :: P')
  | Partly_open n p' P Q P' : Chosen (BlankOrLine n) p' -> Partly P Q P' -> Partly (BlankOrLine n :: P) (BlankOrLine n :: Q) (p' :: P')
  | Partly_line n P Q P' : Partly P Q P' -> Partly (BlankOrLine n :: P) (Line n :: Q) (Line n :: P')
  | Partly_blank n t P Q P' : Partly (Word t :: P) Q P' -> Partly (BlankOrLine n :: Word t :: P) (Blank :: Q) (Blank :: P').

  Lemma partly_down P Q P' : Partly P Q P' -> forall col, room width col Q = true -> room width col P = true.
  Proof.
    induction 1 as [|p P Q P' Hp _ IH|n p' P Q P' _ _ IH|n P Q P' _ IH|n t P Q P' _ IH]; intros col H; try reflexivity.
    destruct p as [t| |m| |m]; cbn [room] in *; auto; try (apply andb_prop in H as [H1 H2]; rewrite H1; cbn [andb]; now apply IH).
  Qed.
  Lemma partly_up P Q P' : Partly P Q P' -> forall col, P' = choose col P -> room width col P = true -> room width col Q = true.
  Proof.
    induction 1 as [|p P Q P' Hp _ IH|n p' P Q P' _ _ IH|n P Q P' _ IH|n t P Q P' _ IH]; intros col E H; try reflexivity.
    - destruct p as [t| |m| |m]; cbn [room choose] in *; try (injection E as E); try (now destruct (Hp m)); auto.
      + apply andb_prop in H as [H1 H2]. rewrite H1. now apply IH.
      + apply andb_prop in H as [H1 H2]. rewrite H1. now apply IH.
    - cbn [choose] in E. destruct (room width (S col) (Word t :: P)) eqn:Er; [|discriminate]. injection E as E. cbn [room].
      rewrite (IH (S col) E Er), andb_true_r. cbn [room] in Er. apply andb_prop in Er as [Er _].
      apply Nat.leb_le in Er. apply Nat.leb_le. lia.
  Qed.
  Lemma partly_text nl ind P Q P' : Partly P Q P' -> forall col, P' = choose col P ->
    text_of width nl ind col Q = text_of width nl ind col P.
  Proof.
    induction 1 as [|p P Q P' Hp HP IH|n p' P Q P' Hc HP IH|n P Q P' HP IH|n t P Q P' HP IH]; intros col E; [reflexivity| | | |].
    - destruct p as [t| |m| |m]; cbn [text_of choose] in *; try (injection E as E); try (now destruct (Hp m)); now rewrite (IH _ E).
    - cbn [choose text_of] in *. destruct (room width (S col) P) eqn:Er; injection E as _ E.
      + rewrite (partly_up _ _ _ HP _ E Er). now rewrite (IH _ E).
      + destruct (room width (S col) Q) eqn:Eq; [now rewrite (partly_down _ _ _ HP _ Eq) in Er|]. now rewrite (IH _ E).
    - cbn [choose text_of] in *. destruct (room width (S col) P) eqn:Er; [discriminate|]. injection E as E. now rewrite (IH _ E).
    - cbn [choose] in E. destruct (room width (S col) (Word t :: P)) eqn:Er; [|discriminate]. injection E as E.
      change (text_of width nl ind col (BlankOrLine n :: Word t :: P))
        with (if room width (S col) (Word t :: P) then T " " ++ text_of width nl ind (S col) (Word t :: P) else nl ++ ind n ++ text_of width nl ind n (Word t :: P)).
      rewrite Er. change (text_of width nl ind col (Blank :: Q)) with (T " " ++ text_of width nl ind (S col) Q). now rewrite (IH (S col) E).
  Qed.
  Lemma partly_app P Q P' : Partly P Q P' -> forall A B A', Partly A B A' -> Partly (P ++ A) (Q ++ B) (P' ++ A').
  Proof. induction 1; intros A B A' HA; cbn [app]; try (constructor; auto); auto. exact (IHPartly _ _ _ HA). Qed.
  Lemma partly_refl P P' : Forall2 Chosen P P' -> Partly P P P'.
  Proof.
    induction 1 as [|p p' P P' H _ IH]; [constructor|]. destruct p; cbn [Chosen] in H; try (subst p'; constructor; [discriminate|exact IH]).
    now constructor.
  Qed.
End Width.

(** ** Gaps *)

(** The line breaks of the blanks before each word, and after the last. *)
Fixpoint pgaps (c : option nat) (l : list lpiece) : list (option nat) * option nat :=
  match l with
  | [] => ([], c)
  | Word _ :: r => let (gs, e) := pgaps None r in (c :: gs, e)
  | (Blank | BlankOrLine _) :: r => pgaps (gmore c 0) r
  | (Line _ | EmptyLine) :: r => pgaps (gmore c 1) r
  end.
Lemma pgaps_app a b : forall c, pgaps c (a ++ b) =
  let (g1, e1) := pgaps c a in let (g2, e2) := pgaps e1 b in (g1 ++ g2, e2).
Proof.
  induction a as [|[t| |n| |n] a IH]; intros c; cbn [app pgaps]; try apply IH.
  - destruct (pgaps c b); reflexivity.
  - rewrite IH. destruct (pgaps None a) as [g1 e1]. destruct (pgaps e1 b). reflexivity.
Qed.
Fixpoint words (l : list lpiece) : list text :=
  match l with [] => [] | Word t :: r => t :: words r | _ :: r => words r end.
Lemma words_app a b : words (a ++ b) = words a ++ words b.
Proof. induction a as [|[t| |n| |n] a IH]; cbn; congruence. Qed.
Lemma pgaps_length l : forall c, length (fst (pgaps c l)) = length (words l).
Proof.
  induction l as [|[t| |n| |n] l IH]; intros c; cbn [pgaps words length]; try apply IH; [reflexivity|].
  specialize (IH None). destruct (pgaps None l). cbn [fst length] in *. congruence.
Qed.
Lemma words_chosen P P' : Forall2 Chosen P P' -> words P' = words P.
Proof.
  induction 1 as [|p p' P P' H _ IH]; [reflexivity|]. destruct p; cbn [Chosen] in H; try (subst p'; cbn [words]; congruence).
  destruct H as [->| ->]; exact IH.
Qed.

Definition fp (p : lpiece) : fpiece :=
  match p with Word t => FT t | Blank => FH | Line _ | EmptyLine => FN | BlankOrLine _ => FS end.
Definition cnt (g : list fpiece) : option nat := match g with [] => None | _ => Some (lows g) end.
Lemma cnt_fh g : cnt (g ++ [FH]) = gmore (cnt g) 0.
Proof. destruct g; [reflexivity|]. cbn [app cnt gmore]. f_equal. unfold lows. rewrite app_comm_cons, filter_app, app_length. reflexivity. Qed.
Lemma cnt_fn g : cnt (g ++ [FN]) = gmore (cnt g) 1.
Proof. destruct g; [reflexivity|]. cbn [app cnt gmore]. f_equal. unfold lows. rewrite app_comm_cons, filter_app, app_length. reflexivity. Qed.
Definition hard (l : list fpiece) : Prop := softs l = 0.
Lemma softs_app a b : softs (a ++ b) = softs a + softs b.
Proof. unfold softs. now rewrite filter_app, app_length. Qed.
Lemma fgo_pgaps l : (forall n, ~ In (BlankOrLine n) l) -> forall acc, softs acc = 0 ->
  pgaps (cnt acc) l = (map cnt (fst (fgo acc (map fp l))), cnt (snd (fgo acc (map fp l))))
  /\ Forall (fun g => softs g = 0) (fst (fgo acc (map fp l))) /\ softs (snd (fgo acc (map fp l))) = 0.
Proof.
  induction l as [|p l IH]; intros Hn acc Ha; [now cbn|].
  assert (Hn' : forall n, ~ In (BlankOrLine n) l) by (intros n Hin; apply (Hn n); now right).
  destruct p as [t| |n| |n]; cbn [map fp fgo pgaps].
  - destruct (IH Hn' [] eq_refl) as (A & B & C). cbn [cnt] in A. rewrite A. destruct (fgo [] (map fp l)) as [gs e]. cbn [fst snd map] in *. auto.
  - rewrite <- cnt_fh. apply IH; [exact Hn'|]. rewrite softs_app, Ha. reflexivity.
  - rewrite <- cnt_fn. apply IH; [exact Hn'|]. rewrite softs_app, Ha. reflexivity.
  - rewrite <- cnt_fn. apply IH; [exact Hn'|]. rewrite softs_app, Ha. reflexivity.
  - destruct (Hn n). now left.
Qed.
Lemma fit_cnt g c : softs g = 0 -> Fit g c -> c = cnt g.
Proof.
  intros H. destruct c as [n|]; cbn [Fit].
  - intros [Hg Hl]. destruct g; [congruence|]. cbn [cnt]. f_equal. lia.
  - now intros ->.
Qed.
Lemma fits_pgaps l ts : (forall n, ~ In (BlankOrLine n) l) -> Fits (fgo [] (map fp l)) (tgo None ts) -> pgaps None l = tgo None ts.
Proof.
  intros Hn [H1 H2]. destruct (fgo_pgaps l Hn [] eq_refl) as (A & B & C). cbn [cnt] in A. rewrite A.
  destruct (fgo [] (map fp l)) as [gs e], (tgo None ts) as [cs c]. cbn [fst snd] in *. f_equal.
  - clear -H1 B. induction H1 as [|g c gs cs H _ IH]; [reflexivity|]. inversion B; subst. cbn [map]. f_equal; [symmetry; now apply fit_cnt|auto].
  - symmetry. now apply fit_cnt.
Qed.
Lemma chosen_hard P P' : Forall2 Chosen P P' -> forall n, ~ In (BlankOrLine n) P'.
Proof.
  intros H n. induction H as [|p p' P P' H _ IH]; intros Hin; [destruct Hin|]. destruct Hin as [Hin|Hin]; auto. subst p'.
  destruct p; cbn [Chosen] in H; try discriminate. destruct H; discriminate.
Qed.

(** ** The text *)

Section Text.
  Variables (width : nat) (nl : text) (ind : nat -> text).
  Hypothesis Hnl : nl = [c_lf] \/ nl = [c_cr; c_lf].
  Hypothesis Hind : forall n, blankt (ind n) /\ count_lf (ind n) = 0.

  Lemma break_fr w l x : blankt w -> count_lf w = 0 -> FR l x -> FR (FN :: l) (nl ++ w ++ x).
  Proof.
    intros Hw Hc Hx. destruct Hnl as [->| ->].
    - cbn [app]. constructor; auto; [now left|discriminate|]. change (c_lf :: w) with ([c_lf] ++ w). rewrite count_app, Hc. reflexivity.
    - cbn [app]. change (c_lf :: w ++ x) with ((c_lf :: w) ++ x). constructor; auto; [right; now left|now exists w|now constructor|].
      change (c_cr :: c_lf :: w) with ([c_cr; c_lf] ++ w). rewrite count_app, Hc. reflexivity.
  Qed.
  Lemma text_fr l : forall col, FR (map fp (choose width col l)) (text_of width nl ind col l).
  Proof.
    induction l as [|[t| |n| |n] l IH]; intros col; cbn [choose text_of]; try (cbn [map fp]; constructor; auto; fail).
    - cbn [map fp]. apply break_fr; [apply Hind|apply Hind|apply IH].
    - cbn [map fp]. apply (break_fr []); [constructor|reflexivity|apply IH].
    - destruct (room width (S col) l); cbn [map fp]; [constructor; auto|]. apply break_fr; [apply Hind|apply Hind|apply IH].
  Qed.
End Text.

Lemma okp_chosen P P' : Forall2 Chosen P P' -> okp (map coarse (map fp P)) -> okp (map coarse (map fp P')).
Proof.
  induction 1 as [|p p' P P' H HF IH]; [auto|]. cbn [map]. destruct p as [t| |n| |n]; cbn [Chosen] in H; try subst p'; cbn [fp coarse okp].
  - intros (A & B & C). split; [exact A|]. split; [|auto]. destruct HF as [|q q' Q Q' Hq _]; [exact I|].
    destruct q as [u| |m| |m]; cbn [Chosen] in Hq; try (subst q'; exact B). destruct Hq as [->| ->]; cbn [map fp coarse adj] in *; auto.
  - exact IH.
  - exact IH.
  - exact IH.
  - destruct H as [->| ->]; exact IH.
Qed.
Lemma flat_pcs : forall d n, map coarse (map fp (flat n d)) = pcs d.
Proof.
  fix IH 1. intros [|t| | | |m d|l] n; try reflexivity.
  - cbn [flat pcs]. destruct (text_eqb t (T " ")); reflexivity.
  - cbn [flat pcs]. apply IH.
  - cbn [flat pcs]. induction l as [|d l IHl]; [reflexivity|]. cbn [flat_map]. rewrite !map_app, IHl. f_equal. apply IH.
Qed.
Lemma texts_words l : texts (map coarse (map fp l)) = words l.
Proof. induction l as [|[t| |n| |n] l IH]; cbn; congruence. Qed.

(** ** Trees that agree but for white space and comments *)

Lemma bare_tok k t g : bare (Tok k t) = bare g -> g = Tok k t.
Proof. destruct g; cbn [bare]; [now intros ->|discriminate]. Qed.
Lemma bare_nd k cs g : bare (Node k cs) = bare g -> exists cs', g = Node k cs' /\ map bare (filter significant cs) = map bare (filter significant cs').
Proof.
  intros E. destruct g as [|k' cs']; [discriminate|]. destruct (bare_children _ _ _ _ E) as [-> Em]. eauto.
Qed.
Lemma token_in_sel k cs : token_in k cs = existsb (selects (STok k)) cs.
Proof. unfold token_in. induction cs as [|[k' t|k' c] cs IH]; cbn [existsb selects]; now rewrite ?IH. Qed.
Lemma token_in_bare k cs cs' : is_trivia_kind k = false -> map bare (filter significant cs) = map bare (filter significant cs') ->
  token_in k cs = token_in k cs'.
Proof.
  intros Hk E. rewrite !token_in_sel. assert (Hs : sel_ok (STok k) = true) by (cbn; now rewrite Hk).
  rewrite (selects_filter _ cs Hs), (selects_filter _ cs' Hs). apply existsb_heads. now apply map_bare_same.
Qed.
Lemma instruction_bare g g' : bare g = bare g' -> instruction g = instruction g'.
Proof. destruct g; intros E; [now apply bare_tok in E as ->|]. apply bare_nd in E as (cs' & -> & _). reflexivity. Qed.
Lemma instrs_bare cs cs' : map bare (filter significant cs) = map bare (filter significant cs') ->
  existsb instruction cs = existsb instruction cs'.
Proof.
  assert (F : forall l, existsb instruction l = existsb instruction (filter significant l)).
  { induction l as [|[k t|k c] l IH]; [reflexivity| |].
    - cbn [existsb filter significant instruction orb]. destruct (negb (is_trivia_kind k)); cbn [existsb instruction orb]; exact IH.
    - cbn [existsb filter significant]. now rewrite IH. }
  intros E. rewrite (F cs), (F cs'). revert E. generalize (filter significant cs) (filter significant cs').
  induction l as [|x l IH]; intros [|y l'] E; try discriminate; [reflexivity|]. injection E as E1 E2. cbn [existsb].
  now rewrite (instruction_bare _ _ E1), (IH _ E2).
Qed.
Lemma node_in_bare k l : forall l', map bare l = map bare l' -> node_in k l = node_in k l'.
Proof.
  induction l as [|x l IH]; intros [|y l'] E; try discriminate; [reflexivity|]. cbn [map] in E.
  pose proof (f_equal (@hd green (Tok ERROR [])) E) as E1. pose proof (f_equal (@tl green) E) as E2. cbn [hd tl] in E1, E2.
  unfold node_in in *. cbn [existsb]. rewrite (IH _ E2). f_equal.
  destruct x; [now apply bare_tok in E1 as ->|]. apply bare_nd in E1 as (c' & -> & _). reflexivity.
Qed.
Lemma map_cons_eq (x : green) l l' : map bare (x :: l) = map bare l' -> exists x' r, l' = x' :: r /\ bare x = bare x' /\ map bare l = map bare r.
Proof.
  destruct l' as [|x' r]; [discriminate|]. cbn [map]. intros E.
  pose proof (f_equal (@hd green (Tok ERROR [])) E) as E1. pose proof (f_equal (@tl green) E) as E2. cbn [hd tl] in E1, E2. eauto.
Qed.
Lemma gap_bare k before before' c c' : map bare before = map bare before' -> bare c = bare c' ->
  gap_before k before c = gap_before k before' c'.
Proof.
  intros Eb Ec. unfold gap_before. rewrite (instruction_bare _ _ Ec). destruct (instruction c'); [reflexivity|].
  destruct before as [|b before].
  { destruct before'; [reflexivity|discriminate]. }
  destruct (map_cons_eq _ _ _ Eb) as (b' & r & -> & _ & _).
  destruct c as [kc t|kc cs]; [now apply bare_tok in Ec as ->|]. apply bare_nd in Ec as (cs' & -> & Em).
  pose proof (token_in_bare L_PAREN _ _ eq_refl Em) as E1. pose proof (token_in_bare KEYWORD _ _ eq_refl Em) as E2.
  pose proof (instrs_bare _ _ Em) as E3. pose proof (node_in_bare LOCAL _ _ Eb) as E4. pose proof (node_in_bare PARAM _ _ Eb) as E5.
  destruct kc; try reflexivity; now rewrite ?E1, ?E2, ?E3, ?E4, ?E5.
Qed.
Lemma inner_bare k pb c c' : bare c = bare c' -> inner k pb c = inner k pb c'.
Proof.
  intros E. destruct c as [kc t|kc cs]; [now apply bare_tok in E as ->|]. apply bare_nd in E as (cs' & -> & Em). reflexivity.
Qed.
Lemma deep_bare c c' : bare c = bare c' -> deep c = deep c'.
Proof.
  intros E. destruct c as [kc t|kc cs]; [now apply bare_tok in E as ->|]. apply bare_nd in E as (cs' & -> & Em).
  pose proof (token_in_bare KEYWORD _ _ eq_refl Em) as E2. destruct kc; try reflexivity; exact E2.
Qed.
Lemma dropped_bare k pb before before' c c' : map bare before = map bare before' -> bare c = bare c' ->
  dropped_before k pb before c = dropped_before k pb before' c'.
Proof.
  intros Eb E. unfold dropped_before. rewrite (node_in_bare _ _ _ Eb).
  destruct c as [kc t|kc cs]; [now apply bare_tok in E as ->|]. apply bare_nd in E as (cs' & -> & Em). reflexivity.
Qed.
Lemma special_tight k before c : special c = true -> gap_before k before c = Tight.
Proof.
  intros H. destruct (special_kind _ H) as (kc & cs & -> & Hk). unfold gap_before.
  destruct Hk as [<-|[<-|[<-|[]]]]; cbn [instruction]; destruct before; try reflexivity; unfold special in H; cbn [loose orb] in H.
  - apply negb_true_iff in H. now rewrite token_in_sel, H.
  - apply negb_true_iff in H. now rewrite token_in_sel, H.
  - rewrite orb_false_r in H. apply negb_true_iff in H. now rewrite token_in_sel, H.
Qed.

(** ** White space and comments *)

Section Spaced.
  Variables (step : nat) (sp : bool).
  Notation pieces m := (flat_map (trivia_pieces sp m)).

  Definition pr (p : kind * text) : kind * text :=
    match fst p with LINE_COMMENT | BLOCK_COMMENT => (fst p, comment_text sp (fst p) (snd p)) | _ => p end.
  Definition vis (l : list green) : list (kind * text) := filter visible (gtokenss l).
  Definition nomeet (l : list green) : Prop := forall a v w b, l <> a ++ Tok WHITESPACE v :: Tok WHITESPACE w :: b.
  Lemma nomeet_suffix a b : nomeet (a ++ b) -> nomeet b.
  Proof. intros H x v w y E. apply (H (a ++ x) v w y). now rewrite E, app_assoc. Qed.
  Lemma nomeet_prefix a b : nomeet (a ++ b) -> nomeet a.
  Proof. intros H x v w y E. apply (H x v w (y ++ b)). now rewrite E, <- app_assoc. Qed.
  Lemma vis_app a b : vis (a ++ b) = vis a ++ vis b.
  Proof. unfold vis. now rewrite gtokenss_app, filter_app. Qed.
  Lemma vis_cons c r : vis (c :: r) = filter visible (gtokens c) ++ vis r.
  Proof. unfold vis. now rewrite gtokenss_cons, filter_app. Qed.

  Lemma pad_cases r : pad r = [] \/ pad r = [c_space].
  Proof. unfold pad. destruct (blank_first r); auto. Qed.
  Lemma pad_padded r z : r <> [] -> pad (pad r ++ r ++ z) = [].
  Proof.
    intros H. unfold pad at 2. destruct (blank_first r) eqn:E; [|reflexivity]. destruct r as [|c r]; [congruence|].
    unfold pad. cbn [app blank_first] in *. now rewrite E.
  Qed.
  Lemma pr_twice k t : LexForm k t -> comment_text sp k (snd (pr (k, t))) = snd (pr (k, t)) \/ ~ In k [LINE_COMMENT; BLOCK_COMMENT].
  Proof.
    intros H. destruct k; try (right; cbn; intuition discriminate); left; unfold pr; cbn [fst snd].
    - destruct H as (r & -> & _). unfold comment_text. destruct sp; [|reflexivity].
      change (skipn 2 (T ";;" ++ r)) with r. destruct r as [|c r]; [reflexivity|].
      destruct (pad_cases (c :: r)) as [E|E]; rewrite E.
      + change (skipn 2 (T ";;" ++ [] ++ c :: r)) with (c :: r). cbv iota. now rewrite E.
      + reflexivity.
    - destruct H as (m & -> & _). unfold comment_text. destruct sp; [|reflexivity].
      assert (F : forall x, firstn (length (T "(;" ++ x ++ T ";)") - 4) (skipn 2 (T "(;" ++ x ++ T ";)")) = x).
      { intros x. change (skipn 2 (T "(;" ++ x ++ T ";)")) with (x ++ T ";)"). rewrite !app_length.
        change (length (T "(;")) with 2. change (length (T ";)")) with 2.
        replace (2 + (length x + 2) - 4) with (length x) by lia. rewrite firstn_app, Nat.sub_diag, firstn_all. apply app_nil_r. }
      rewrite F. destruct m as [|c m]; [reflexivity|]. set (r := c :: m).
      assert (A : forall z, T "(;" ++ pad r ++ r ++ z ++ T ";)" = T "(;" ++ (pad r ++ r ++ z) ++ T ";)") by (intros z; now rewrite <- !app_assoc).
      rewrite A, F. set (q := pad r ++ r ++ pad (rev r)).
      assert (Hr : r <> []) by discriminate.
      assert (Q1 : pad q = []) by (apply pad_padded; exact Hr).
      assert (Q2 : pad (rev q) = []).
      { unfold q. rewrite !rev_app_distr. replace (rev (pad (rev r))) with (pad (rev r)) by (destruct (pad_cases (rev r)) as [E|E]; now rewrite E).
        rewrite <- app_assoc. apply pad_padded. intros E. apply Hr. rewrite <- (rev_involutive r), E. reflexivity. }
      rewrite Q1, Q2. destruct q as [|d s] eqn:Eq; [|rewrite app_nil_l; now rewrite app_nil_l].
      unfold q in Eq. destruct (pad r); discriminate Eq.
  Qed.

  Definition wsl (g : green) : bool := match g with Tok WHITESPACE _ => true | _ => false end.
  Lemma triv_cases g : TrivEl g -> (exists w, g = Tok WHITESPACE w) \/ exists k t, g = Tok k t /\ In k [LINE_COMMENT; BLOCK_COMMENT] /\ LexForm k t.
  Proof.
    intros [Hs Hg]. destruct g as [k t|]; [|discriminate]. destruct Hg as [He Hl]. cbn [significant] in Hs. apply negb_false_iff in Hs.
    specialize (Hl Hs). destruct k; try discriminate Hs; try congruence; [left; eauto|right|right].
    - exists LINE_COMMENT, t. split; [reflexivity|]. split; [now left|exact Hl].
    - exists BLOCK_COMMENT, t. split; [reflexivity|]. split; [right; now left|exact Hl].
  Qed.
  Lemma comment_facts k t : In k [LINE_COMMENT; BLOCK_COMMENT] ->
    visible (k, t) = true /\ a_comment (Tok k t) = true /\ (forall m, trivia_pieces sp m (Tok k t) = [Word (snd (pr (k, t)))]) /\ fst (pr (k, t)) = k.
  Proof. intros [<-|[<-|[]]]; repeat split. Qed.
  Lemma ws_gaps m c w l : pgaps c (trivia_pieces sp m (Tok WHITESPACE w) ++ l) = pgaps (gmore c (Nat.min 2 (lines w))) l.
  Proof.
    cbn [trivia_pieces]. destruct (lines w) as [|[|n]]; cbn [app pgaps Nat.min]; [reflexivity|reflexivity|]. rewrite FmtGap.more_more. reflexivity.
  Qed.
  Lemma ws_pieces m v w : Nat.min 2 (lines v) = Nat.min 2 (lines w) -> trivia_pieces sp m (Tok WHITESPACE v) = trivia_pieces sp m (Tok WHITESPACE w).
  Proof. cbn [trivia_pieces]. destruct (lines v) as [|[|n]], (lines w) as [|[|n']]; cbn; try discriminate; reflexivity. Qed.

  Lemma fst_tgo_word k t ts c : visible (k, t) = true -> tgo c ((k, t) :: ts) = (c :: fst (tgo None ts), snd (tgo None ts)).
  Proof. intros H. cbn [tgo]. rewrite H. destruct (tgo None ts); reflexivity. Qed.
  Lemma fst_pgaps_word t l c : pgaps c (Word t :: l) = (c :: fst (pgaps None l), snd (pgaps None l)).
  Proof. cbn [pgaps]. destruct (pgaps None l); reflexivity. Qed.

  (** A row of white space and comments starts with white space or not. *)
  Lemma starts_none ts : Forall TrivEl ts -> nomeet ts ->
    (ts = [] \/ (exists k t r, ts = Tok k t :: r /\ In k [LINE_COMMENT; BLOCK_COMMENT] /\ LexForm k t))
    \/ exists w r, ts = Tok WHITESPACE w :: r /\ (r = [] \/ exists k t r', r = Tok k t :: r' /\ In k [LINE_COMMENT; BLOCK_COMMENT] /\ LexForm k t).
  Proof.
    intros HT Hm. destruct ts as [|g ts]; [left; now left|]. inversion HT as [|? ? Hg HT']; subst.
    destruct (triv_cases _ Hg) as [(w & ->)|(k & t & -> & Hk & Hl)]; [|left; right; eauto 6].
    right. exists w, ts. split; [reflexivity|]. destruct ts as [|h ts]; [now left|]. right. inversion HT' as [|? ? Hh _]; subst.
    destruct (triv_cases _ Hh) as [(v & ->)|(k & t & -> & Hk & Hl)]; [|eauto 6]. now destruct (Hm [] w v ts).
  Qed.

  Lemma same_pieces m : forall n ts ts', length ts <= n -> Forall TrivEl ts -> Forall TrivEl ts' -> nomeet ts -> nomeet ts' ->
    vis ts' = map pr (vis ts) -> pgaps None (pieces m ts) = tgo None (gtokenss ts') -> pieces m ts' = pieces m ts.
  Proof.
    induction n as [|n IH]; intros ts ts' Hn HT HT' Hm Hm' Hv Hg.
    { destruct ts as [|? ?]; [|cbn in Hn; lia]. destruct (starts_none ts' HT' Hm') as [[->|(k & t & r & -> & Hk & Hl)]|(w & r & -> & Hr)]; [reflexivity| |].
      - destruct (comment_facts k t Hk) as (V & _). cbn in Hv. rewrite V in Hv. discriminate.
      - destruct Hr as [->|(k & t & r' & -> & Hk & Hl)]; [discriminate Hg|].
        destruct (comment_facts k t Hk) as (V & _). cbn in Hv. rewrite V in Hv. discriminate. }
    (* words first *)
    assert (W : forall k t r ts' , length (Tok k t :: r) <= S n -> In k [LINE_COMMENT; BLOCK_COMMENT] -> LexForm k t ->
      Forall TrivEl (Tok k t :: r) -> Forall TrivEl ts' -> nomeet (Tok k t :: r) -> nomeet ts' ->
      (ts' = [] \/ exists k t r, ts' = Tok k t :: r /\ In k [LINE_COMMENT; BLOCK_COMMENT] /\ LexForm k t) ->
      vis ts' = map pr (vis (Tok k t :: r)) -> forall c, pgaps c (pieces m (Tok k t :: r)) = tgo c (gtokenss ts') -> pieces m ts' = pieces m (Tok k t :: r)).
    { clear ts ts' Hn HT HT' Hm Hm' Hv Hg. intros k t r ts' Hn Hk Hl HT HT' Hm Hm' Hs Hv c Hg.
      destruct (comment_facts k t Hk) as (V & _ & W & K).
      rewrite vis_cons in Hv. cbn [gtokens filter] in Hv. rewrite V in Hv. cbn [app map] in Hv.
      destruct Hs as [->|(k' & t' & r' & -> & Hk' & Hl')]; [discriminate Hv|].
      destruct (comment_facts k' t' Hk') as (V' & _ & W' & K').
      rewrite vis_cons in Hv. cbn [gtokens filter] in Hv. rewrite V' in Hv. cbn [app] in Hv.
      injection Hv as E1 E2. assert (k' = k) by (rewrite <- K, <- E1; reflexivity). subst k'.
      cbn [flat_map] in Hg |- *. rewrite W in *. rewrite W'. cbn [app] in Hg. rewrite fst_pgaps_word, gtokenss_cons in Hg.
      cbn [gtokens app] in Hg. rewrite fst_tgo_word in Hg by exact V'. injection Hg as G1 G2.
      assert (X : snd (pr (k, t')) = snd (pr (k, t))).
      { destruct (pr_twice k t Hl) as [X|X]; [|contradiction]. rewrite <- E1 in X |- *. cbn [snd] in *.
        destruct Hk as [<-|[<-|[]]]; exact X. }
      rewrite X. f_equal.
      - inversion HT; subst. inversion HT'; subst. apply IH; auto.
        + cbn in Hn. lia.
        + exact (nomeet_suffix [_] _ Hm).
        + exact (nomeet_suffix [_] _ Hm').
        + destruct (pgaps None (pieces m r)), (tgo None (gtokenss r')). cbn [fst snd] in *. congruence. }
    destruct (starts_none ts HT Hm) as [[->|(k & t & r & -> & Hk & Hl)]|(w & r & -> & Hr)].
    - apply IH; auto. cbn. lia.
    - destruct (starts_none ts' HT' Hm') as [Hs|(w' & r' & -> & Hr')]; [eapply W; eauto|exfalso].
      cbn [flat_map] in Hg. destruct (comment_facts k t Hk) as (V & _ & X & _). rewrite X in Hg. cbn [app] in Hg. rewrite fst_pgaps_word in Hg.
      rewrite gtokenss_cons in Hg. cbn [gtokens app tgo] in Hg. change (visible (WHITESPACE, w')) with false in Hg. cbn [snd] in Hg.
      destruct Hr' as [->|(k' & t' & r'' & -> & Hk' & _)]; [cbn in Hg; discriminate Hg|].
      rewrite gtokenss_cons in Hg. cbn [gtokens app] in Hg. rewrite fst_tgo_word in Hg by now apply comment_facts. discriminate Hg.
    - cbn [flat_map] in Hg. rewrite ws_gaps in Hg. cbn [gmore] in Hg. inversion HT as [|? ? _ HT2]; subst.
      pose proof (nomeet_suffix [_] _ Hm) as Hm2. rewrite vis_cons in Hv. cbn [gtokens filter] in Hv. change (visible (WHITESPACE, w)) with false in Hv. cbn [app] in Hv.
      destruct (starts_none ts' HT' Hm') as [Hs|(w' & r' & -> & Hr')].
      + exfalso. destruct Hs as [->|(k & t & r' & -> & Hk & _)].
        * destruct Hr as [->|(k & t & r' & -> & Hk & _)]; [cbn in Hg; discriminate Hg|].
          cbn [flat_map] in Hg. destruct (comment_facts k t Hk) as (V & _ & X & _). rewrite X in Hg. cbn [app] in Hg. rewrite fst_pgaps_word in Hg. discriminate Hg.
        * rewrite gtokenss_cons in Hg. cbn [gtokens app] in Hg. rewrite fst_tgo_word in Hg by now apply comment_facts.
          destruct Hr as [->|(k0 & t0 & r0 & -> & Hk0 & _)]; [cbn in Hg; discriminate Hg|].
          cbn [flat_map] in Hg. destruct (comment_facts k0 t0 Hk0) as (V & _ & X & _). rewrite X in Hg. cbn [app] in Hg. rewrite fst_pgaps_word in Hg. discriminate Hg.
      + inversion HT' as [|? ? _ HT2']; subst. pose proof (nomeet_suffix [_] _ Hm') as Hm2'.
        rewrite vis_cons in Hv. cbn [gtokens filter] in Hv. change (visible (WHITESPACE, w')) with false in Hv. cbn [app] in Hv.
        rewrite gtokenss_cons in Hg. cbn [gtokens app tgo] in Hg. change (visible (WHITESPACE, w')) with false in Hg. cbn [snd gmore] in Hg.
        change (count_lf w') with (lines w') in Hg. cbn [flat_map].
        assert (X : Nat.min 2 (lines w) = lines w' /\ pieces m r' = pieces m r).
        { destruct Hr as [->|(k & t & r0 & -> & Hk & Hl)].
          - destruct Hr' as [->|(k' & t' & r1 & -> & Hk' & _)].
            + cbn in Hg. injection Hg as Hg. auto.
            + rewrite gtokenss_cons in Hg. cbn [gtokens app] in Hg. rewrite fst_tgo_word in Hg by now apply comment_facts. discriminate Hg.
          - destruct Hr' as [->|(k' & t' & r1 & -> & Hk' & Hl')].
            + cbn [flat_map] in Hg. destruct (comment_facts k t Hk) as (_ & _ & X & _). rewrite X in Hg. cbn [app] in Hg. rewrite fst_pgaps_word in Hg. discriminate Hg.
            + assert (G : Nat.min 2 (lines w) = lines w').
              { cbn [flat_map] in Hg. destruct (comment_facts k t Hk) as (_ & _ & X & _). rewrite X in Hg. cbn [app] in Hg. rewrite fst_pgaps_word in Hg.
                rewrite gtokenss_cons in Hg. cbn [gtokens app] in Hg. rewrite fst_tgo_word in Hg by now apply comment_facts. injection Hg as Hg _. exact Hg. }
              split; [exact G|]. rewrite G in Hg. apply (W k t r0 (Tok k' t' :: r1)) with (c := Some (lines w')); auto; [cbn in Hn |- *; lia|right; eauto 6]. }
        destruct X as [X1 ->]. f_equal. apply ws_pieces. rewrite <- X1. lia.
  Qed.
  (** *** What is between two children *)

  Lemma chosen_id P P' : (forall n, ~ In (BlankOrLine n) P) -> Forall2 Chosen P P' -> P' = P.
  Proof.
    intros Hn H. induction H as [|p p' P P' H _ IH]; [reflexivity|].
    rewrite IH by (intros n Hin; apply (Hn n); now right). f_equal. destruct p; cbn [Chosen] in H; auto.
    destruct (Hn n). now left.
  Qed.
  Lemma pieces_hard m ts : forall n, ~ In (BlankOrLine n) (pieces m ts).
  Proof.
    intros n Hin. apply in_flat_map in Hin as (g & _ & Hin). destruct g as [k t|]; [|destruct Hin].
    destruct k; cbn [trivia_pieces] in Hin; try (destruct Hin as [X|[]]; discriminate X).
    destruct (lines t) as [|[|?]]; cbn in Hin; intuition discriminate.
  Qed.
  Lemma vis_comments ts : Forall TrivEl ts -> (existsb a_comment ts = false <-> vis ts = []).
  Proof.
    induction 1 as [|g ts Hg _ IH]; [split; reflexivity|]. rewrite vis_cons. cbn [existsb].
    destruct (triv_cases _ Hg) as [(w & ->)|(k & t & -> & Hk & _)]; [exact IH|].
    destruct (comment_facts k t Hk) as (V & -> & _). cbn [gtokens filter]. rewrite V. split; discriminate.
  Qed.
  Lemma no_comments ts : Forall TrivEl ts -> nomeet ts -> existsb a_comment ts = false -> ts = [] \/ exists w, ts = [Tok WHITESPACE w].
  Proof.
    intros HT Hm Hc. destruct (starts_none ts HT Hm) as [[->|(k & t & r & -> & Hk & _)]|(w & r & -> & [->|(k & t & r' & -> & Hk & _)])]; eauto.
    - destruct (comment_facts k t Hk) as (_ & X & _). cbn [existsb] in Hc. rewrite X in Hc. discriminate Hc.
    - destruct (comment_facts k t Hk) as (_ & X & _). cbn [existsb] in Hc. rewrite X, orb_true_r in Hc. discriminate Hc.
  Qed.
  Lemma kept_comment prev ts : existsb a_comment ts = true -> kept_between prev ts = true.
  Proof.
    intros H. apply existsb_exists in H as (g & Hg & Hc). unfold kept_between. apply existsb_exists. exists g. split; [exact Hg|]. now rewrite Hc.
  Qed.

  Lemma tgo_ws w : tgo None (gtokenss [Tok WHITESPACE w]) = ([], Some (lines w)).
  Proof. reflexivity. Qed.
  Lemma few_lines n k before y P' : (special y = false \/ P' = []) -> Forall2 Chosen (gap_pieces step n (gap_before k before y)) P' ->
    forall x, Some x = (if special y then gmore (snd (pgaps None P')) 1 else snd (pgaps None P')) -> x <= 1.
  Proof.
    intros Hs HC x He. destruct (special y).
    - destruct Hs as [X| ->]; [discriminate X|]. cbn in He. injection He as ->. lia.
    - destruct (gap_before k before y); cbn [gap_pieces] in HC; inversion HC as [|? c' ? ? Hc' HC2]; subst; try (inversion HC2; subst); cbn [Chosen] in *; subst; cbn in He; try discriminate He; try (injection He as ->; lia).
      destruct Hc' as [->| ->]; cbn in He; injection He as ->; lia.
  Qed.
  Lemma front_again k pb m before before' pre pre' y y' P' :
    before <> [] -> map bare before = map bare before' -> bare y = bare y' ->
    Forall TrivEl pre -> Forall TrivEl pre' -> nomeet pre -> nomeet pre' -> vis pre' = map pr (vis pre) ->
    (dropped_before k pb before y = true -> forall p b, before = p :: b -> kept_between p pre = false) ->
    (existsb a_comment pre = true -> special y = false) ->
    Forall2 Chosen (in_front step sp k pb m before pre y) P' ->
    fst (pgaps None P') = fst (tgo None (gtokenss pre')) ->
    snd (tgo None (gtokenss pre')) = (let e := snd (pgaps None P') in if special y then gmore e 1 else e) ->
    Partly (in_front step sp k pb m before pre y) (in_front step sp k pb m before' pre' y') P'.
  Proof.
    intros Hb Eb Ey HT HT' Hm Hm' Hv Hd Hs HC Hf He.
    destruct before as [|p b]; [congruence|]. destruct (map_cons_eq _ _ _ Eb) as (p' & b' & -> & Ep & Ebb).
    specialize (fun H => Hd H p b eq_refl).
    pose proof (dropped_bare k pb _ _ _ _ Eb Ey) as Ed. pose proof (gap_bare k _ _ _ _ Eb Ey) as Eg.
    unfold in_front in *. rewrite <- Ed, <- Eg. clear Ed Eg.
    assert (Ec : existsb a_comment pre' = existsb a_comment pre).
    { pose proof (vis_comments _ HT) as [A1 A2]. pose proof (vis_comments _ HT') as [B1 B2].
      destruct (existsb a_comment pre) eqn:E.
      - destruct (existsb a_comment pre') eqn:E'; [reflexivity|]. rewrite (B1 eq_refl) in Hv. symmetry in Hv. apply map_eq_nil in Hv. symmetry. auto.
      - apply B2. now rewrite Hv, (A1 eq_refl). }
    assert (Hk : forall ts, kept_between p' ts = kept_between p ts).
    { intros ts. destruct p as [kp tp|kp cp]; [now apply bare_tok in Ep as ->|]. apply bare_nd in Ep as (cp' & -> & _). reflexivity. }
    rewrite Hk. destruct (existsb a_comment pre) eqn:E.
    - rewrite (kept_comment p pre E), (kept_comment p pre' Ec) in *.
      destruct (dropped_before k pb (p :: b) y); [discriminate (Hd eq_refl)|]. rewrite (Hs eq_refl) in He. cbv zeta in He.
      destruct p as [kp tp|kp cp].
      + apply bare_tok in Ep as ->. cbn [between] in *.
        assert (E0 : P' = Blank :: pieces m (from_comment pre)).
        { apply chosen_id; [|exact HC]. intros n [X|X]; [discriminate|]. now apply pieces_hard in X. }
        subst P'. cbn [pgaps gmore] in Hf, He.
        assert (Q : exists q, from_comment pre = q /\ vis pre = vis q /\ Forall TrivEl q /\ nomeet q /\
          exists k t r, q = Tok k t :: r /\ In k [LINE_COMMENT; BLOCK_COMMENT]).
        { destruct (starts_none pre HT Hm) as [[->|(k0 & t & r & -> & Hk0 & _)]|(w & r & -> & [->|(k0 & t & r' & -> & Hk0 & _)])]; try discriminate E.
          - exists (Tok k0 t :: r). split; [destruct Hk0 as [<-|[<-|[]]]; reflexivity|]. eauto 10.
          - exists (Tok k0 t :: r'). split; [destruct Hk0 as [<-|[<-|[]]]; reflexivity|]. split; [reflexivity|]. inversion HT; subst.
            split; [assumption|]. split; [exact (nomeet_suffix [_] _ Hm)|eauto 6]. }
        destruct Q as (q & Eq & Evq & HTq & Hmq & k0 & t & r & Er & Hk0). rewrite Eq in *.
        assert (G : pgaps (Some 0) (pieces m q) = tgo None (gtokenss pre')).
        { apply injective_projections; [exact Hf|symmetry; exact He]. }
        destruct (comment_facts k0 t Hk0) as (V0 & _ & W0 & _).
        assert (Gq : pieces m q = Word (snd (pr (k0, t))) :: pieces m r) by (rewrite Er; cbn [flat_map]; now rewrite W0).
        rewrite Gq, fst_pgaps_word in G.
        destruct (starts_none pre' HT' Hm') as [[->|(k1 & t1 & r1 & -> & Hk1 & _)]|(w & q' & -> & Hq')].
        * discriminate G.
        * rewrite gtokenss_cons in G. cbn [gtokens app] in G. rewrite fst_tgo_word in G by now apply comment_facts. discriminate G.
        * destruct Hq' as [->|(k1 & t1 & r1 & -> & Hk1 & _)]; [discriminate G|].
          assert (F : from_comment (Tok WHITESPACE w :: Tok k1 t1 :: r1) = Tok k1 t1 :: r1) by (destruct Hk1 as [<-|[<-|[]]]; reflexivity).
          rewrite F. pose proof (Forall_inv_tail HT') as HT2. clear Eq.
          rewrite (same_pieces m (length q) q (Tok k1 t1 :: r1)); auto.
          -- apply partly_refl. exact HC.
          -- exact (nomeet_suffix [_] _ Hm').
          -- rewrite <- Evq, <- Hv. reflexivity.
          -- rewrite gtokenss_cons in G |- *. cbn [gtokens app tgo] in G. change (visible (WHITESPACE, w)) with false in G. cbn [snd gmore] in G.
             rewrite gtokenss_cons in G. cbn [gtokens app] in G |- *. rewrite fst_tgo_word in G |- * by now apply comment_facts.
             rewrite Gq, fst_pgaps_word. injection G as _ G1 G2. now rewrite G1, G2.
      + apply bare_nd in Ep as (cp' & -> & _). cbn [between] in *.
        destruct (starts_none pre HT Hm) as [[->|(k0 & t & r & -> & Hk0 & _)]|(w & r & -> & Hr)]; [discriminate E| |].
        * destruct (comment_facts k0 t Hk0) as (V0 & A0 & W0 & _). rewrite A0 in *.
          assert (Gq : pieces m (Tok k0 t :: r) = Word (snd (pr (k0, t))) :: pieces m r) by (cbn [flat_map]; now rewrite W0).
          cbn [app] in HC |- *. inversion HC as [|? c' ? P2 Hc' HC2]; subst.
          assert (E0 : P2 = pieces m (Tok k0 t :: r)) by (apply chosen_id; [apply pieces_hard|exact HC2]). subst P2.
          assert (X : exists z, z <= 1 /\ c' = match z with 0 => Blank | _ => Line m end /\ pgaps None (c' :: pieces m (Tok k0 t :: r)) = pgaps (Some z) (pieces m (Tok k0 t :: r))).
          { cbn [Chosen] in Hc'. destruct Hc' as [->| ->]; [exists 0|exists 1]; (split; [lia|]; split; reflexivity). }
          destruct X as (z & Hz & Ez & Gz). rewrite Gz in Hf, He.
          assert (G : pgaps (Some z) (pieces m (Tok k0 t :: r)) = tgo None (gtokenss pre')).
          { apply injective_projections; [exact Hf|symmetry; exact He]. }
          clear Gz Hf He. rewrite Gq, fst_pgaps_word in G.
          destruct (starts_none pre' HT' Hm') as [[->|(k1 & t1 & r1 & -> & Hk1 & _)]|(w & q' & -> & Hq')].
          -- discriminate G.
          -- rewrite gtokenss_cons in G. cbn [gtokens app] in G. rewrite fst_tgo_word in G by now apply comment_facts. discriminate G.
          -- destruct Hq' as [->|(k1 & t1 & r1 & -> & Hk1 & _)]; [discriminate G|].
             inversion HT' as [|? ? _ HT2]; subst. cbn [a_comment app].
             rewrite gtokenss_cons in G. cbn [gtokens app tgo] in G. change (visible (WHITESPACE, w)) with false in G. cbn [snd gmore] in G.
             rewrite gtokenss_cons in G. cbn [gtokens app] in G. rewrite fst_tgo_word in G by now apply comment_facts.
             injection G as G0 G1 G2. change (count_lf w) with (lines w) in G0.
             assert (S : pieces m (Tok k1 t1 :: r1) = pieces m (Tok k0 t :: r)).
             { apply (same_pieces m (length (Tok k0 t :: r))); auto.
               - exact (nomeet_suffix [_] _ Hm').
               - rewrite gtokenss_cons. cbn [gtokens app]. rewrite fst_tgo_word by now apply comment_facts.
                 rewrite Gq, fst_pgaps_word. now rewrite G1, G2. }
             change (flat_map (trivia_pieces sp m) (Tok WHITESPACE w :: Tok k1 t1 :: r1))
               with (trivia_pieces sp m (Tok WHITESPACE w) ++ pieces m (Tok k1 t1 :: r1)).
             rewrite S. cbn [trivia_pieces]. rewrite <- G0. rewrite Gq in *. destruct z as [|[|z]]; [| |lia].
             ++ cbn [app]. apply Partly_blank. apply partly_refl. inversion HC; assumption.
             ++ cbn [app]. apply Partly_line. apply partly_refl. inversion HC; assumption.
        * cbn [a_comment app] in HC |- *. set (pre := Tok WHITESPACE w :: r) in *.
          assert (E0 : P' = pieces m pre) by (apply chosen_id; [apply pieces_hard|exact HC]). subst P'.
          assert (G : pgaps None (pieces m pre) = tgo None (gtokenss pre')).
          { apply injective_projections; [exact Hf|symmetry; exact He]. }
          assert (S : pieces m pre' = pieces m pre) by (apply (same_pieces m (length pre)); auto).
          destruct pre' as [|g' r']; [discriminate Ec|]. inversion HT' as [|? ? Hg' _]; subst.
          destruct (triv_cases _ Hg') as [(w' & ->)|(k1 & t1 & -> & Hk1 & _)].
          -- cbn [a_comment app]. rewrite S. now apply partly_refl.
          -- exfalso. rewrite gtokenss_cons in G. cbn [gtokens app] in G. rewrite fst_tgo_word in G by now apply comment_facts.
             unfold pre in G. cbn [flat_map] in G. rewrite ws_gaps in G. cbn [gmore] in G.
             destruct Hr as [->|(k0 & t & r0 & -> & Hk0 & _)]; [discriminate G|].
             destruct (comment_facts k0 t Hk0) as (V0 & A0 & W0 & _). cbn [flat_map] in G. rewrite W0 in G. cbn [app] in G. rewrite fst_pgaps_word in G. discriminate G.
    - destruct (no_comments _ HT Hm E) as [->|(w & ->)].
      + cbn [kept_between existsb] in HC |- *.
        assert (K : kept_between p pre' = false).
        { destruct (no_comments _ HT' Hm' Ec) as [->|(w' & ->)]; [reflexivity|]. unfold kept_between. cbn [existsb a_comment orb].
          destruct p as [kp tp|kp cp]; [reflexivity|]. rewrite orb_false_r. apply Nat.leb_gt.
          rewrite tgo_ws in He. cbn [snd] in He. eapply Nat.lt_succ_r, few_lines; [|exact HC|exact He].
          destruct (special y) eqn:Es; [right|now left]. rewrite (special_tight k (Node kp cp :: b) y Es) in HC. now inversion HC. }
        rewrite K. now apply partly_refl.
      + destruct (kept_between p [Tok WHITESPACE w]) eqn:Ek.
        * destruct p as [kp tp|kp cp]; [discriminate Ek|].
          destruct (dropped_before k pb (Node kp cp :: b) y); [discriminate (Hd eq_refl)|].
          unfold kept_between in Ek. cbn [existsb a_comment orb] in Ek. rewrite orb_false_r in Ek. apply Nat.leb_le in Ek.
          apply bare_nd in Ep as (cp' & -> & _). cbn [between a_comment app flat_map trivia_pieces] in HC |- *.
          assert (L : match lines w with 0 => [Blank] | 1 => [Line m] | _ => [EmptyLine; Line m] end = [EmptyLine; Line m]).
          { destruct (lines w) as [|[|?]]; [lia|lia|reflexivity]. }
          rewrite L in *. cbn [app] in *. assert (E0 : P' = [EmptyLine; Line m]).
          { apply chosen_id; [|exact HC]. intros n [X|[X|[]]]; discriminate. }
          subst P'. cbn [pgaps gmore snd] in He.
          assert (Z : exists w', pre' = [Tok WHITESPACE w'] /\ 2 <= lines w').
          { destruct (no_comments _ HT' Hm' Ec) as [->|(w' & ->)].
            - exfalso. destruct (special y); discriminate He.
            - exists w'. split; [reflexivity|]. rewrite tgo_ws in He. cbn [snd] in He. destruct (special y); injection He as ->; lia. }
          destruct Z as (w' & -> & Hw'). unfold kept_between. cbn [existsb a_comment orb]. rewrite orb_false_r, (proj2 (Nat.leb_le _ _) Hw').
          cbn [a_comment app flat_map trivia_pieces].
          assert (L' : match lines w' with 0 => [Blank] | 1 => [Line m] | _ => [EmptyLine; Line m] end = [EmptyLine; Line m]).
          { destruct (lines w') as [|[|?]]; [lia|lia|reflexivity]. }
          rewrite L'. now apply partly_refl.
        * assert (K : kept_between p pre' = false).
          { destruct (no_comments _ HT' Hm' Ec) as [->|(w' & ->)]; [reflexivity|]. unfold kept_between. cbn [existsb a_comment orb].
            destruct p as [kp tp|kp cp]; [reflexivity|]. rewrite orb_false_r. apply Nat.leb_gt.
            rewrite tgo_ws in He. cbn [snd] in He. eapply Nat.lt_succ_r, few_lines; [|exact HC|exact He].
            destruct (special y) eqn:Es; [right|now left]. rewrite (special_tight k (Node kp cp :: b) y Es) in HC. now inversion HC. }
          rewrite K. now apply partly_refl.
  Qed.
End Spaced.
