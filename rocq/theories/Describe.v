(** Descriptions of parsers: a description determines a parser of
    [Grammar.v] and a grammar expression of [SpecComplete.v], and a check
    on descriptions implies that the parser reads exactly the trees of the
    expression. *)

From Coq Require Import String List NArith Bool Arith Lia.
From Verif Require Import Text Kind Green SpecParser Lexer LexerFacts Winnow Grammar SpecComplete LexAccept TokAccept Streams.
Import ListNotations.
Local Open Scope list_scope.

Inductive lk : Set := LParenWord | LOptParenWord | LTrivAny.
Definition look_of (l : lk) : look :=
  match l with LParenWord => la_paren_word | LOptParenWord => la_opt_paren_word | LTrivAny => la_triv_any end.

Inductive dg : Type :=
| DTok (c : tcls)
| DEmpty
| DFail
| DSeq (a b : dg)
| DAlt (a b : dg)
| DOpt (a : dg)
| DRep (a : dg)
| DRep1 (a : dg)
| DRep2 (a b : dg)                         (* one repeated parser, with two kinds of items *)
| DTill (a : dg) (names : list string)     (* up to one of the words or [)] *)
| DTillN (a b : dg)                        (* up to [b] *)
| DIf (l : lk) (w : text) (a b : dg)
| DFirst (f : char -> bool) (a b : dg)
| DNode (k : kind) (a : dg)
| DLoose (k : kind) (a : dg)
| DCtx (m : msg) (a : dg)
| DTp (a : dg)
| DRetry (a : dg) (names : list string)
| DOnce (a : dg) (names : list string)
| DMust (a : dg)
| DRParen
| DPeekLp (a : dg)
| DInstr (i : iclass)
| DHide (a : dg)                           (* a parser none of whose trees is considered *)
| DSub (e : rx) (a : dg).                  (* only the trees of [e] are considered *)

Fixpoint erase (d : dg) : grammar :=
  match d with
  | DTok c => GTok (ckind c) (clex c)
  | DEmpty => GEmpty
  | DFail => GFail
  | DSeq a b => GSeq (erase a) (erase b)
  | DAlt a b => GAlt (erase a) (erase b)
  | DOpt a => GOpt (erase a)
  | DRep a => GRep (erase a)
  | DRep1 a => GRep1 (erase a)
  | DRep2 a _ => GRep (erase a)
  | DTill a ns => GTill (erase a) (GPeek (la_block_end (map T ns)))
  | DTillN a b => GTill (erase a) (erase b)
  | DIf l w a b => GIf (look_of l) (text_eqb w) (erase a) (erase b)
  | DFirst f a b => GIf la_any (first_char f) (erase a) (erase b)
  | DNode k a => GNode k (erase a)
  | DLoose k a => GNode k (erase a)
  | DCtx m a => GCtx m (erase a)
  | DTp a => tp (erase a)
  | DRetry a ns => GRetry (erase a) (map T ns)
  | DOnce a ns => GRetryOnce (erase a) (map T ns)
  | DMust a => GMust (erase a)
  | DRParen => GRParen
  | DPeekLp a => GSeq (GPeek la_lparen) (erase a)
  | DInstr _ => GInstr
  | DHide a => erase a
  | DSub _ a => erase a
  end.

Definition or_opt (a b : option rx) : option rx :=
  match a, b with Some x, Some y => Some (Or x y) | Some x, None => Some x | None, y => y end.
Definition map_opt (f : rx -> rx) (a : option rx) : option rx :=
  match a with Some x => Some (f x) | None => None end.
Definition seq_opt (a b : option rx) : option rx :=
  match a, b with Some x, Some y => Some (Sq x y) | _, _ => None end.
(** The trees; [None] when there are none. *)
Fixpoint lang (d : dg) : option rx :=
  match d with
  | DTok c => Some (crx c)
  | DEmpty => Some Eps
  | DFail => None
  | DSeq a b => seq_opt (lang a) (lang b)
  | DAlt a b | DIf _ _ a b | DFirst _ a b => or_opt (lang a) (lang b)
  | DOpt a => or_opt (lang a) (Some Eps)
  | DRep a | DTill a _ => map_opt Star (lang a)
  | DRep1 a => map_opt Plus (lang a)
  | DRep2 a b => seq_opt (map_opt Star (lang a)) (map_opt Star (lang b))
  | DTillN a b => seq_opt (map_opt Star (lang a)) (lang b)
  | DNode k a => map_opt (Nd k) (lang a)
  | DLoose k a => map_opt (Loose k) (lang a)
  | DCtx _ a | DTp a | DRetry a _ | DOnce a _ | DMust a | DPeekLp a => lang a
  | DRParen => Some (Tk R_PAREN)
  | DInstr i => Some (Ins i)
  | DHide _ => None
  | DSub e a => match lang a with Some _ => Some e | None => None end
  end.
(** The inclusions claimed by [DSub]. *)
Fixpoint wf (d : dg) : Prop :=
  match d with
  | DTok _ | DEmpty | DFail | DRParen | DInstr _ | DHide _ => True
  | DSeq a b | DAlt a b | DTillN a b | DIf _ _ a b | DFirst _ a b => wf a /\ wf b
  | DOpt a | DRep a | DRep1 a | DTill a _ | DNode _ a | DLoose _ a | DCtx _ a | DTp a | DRetry a _
  | DOnce a _ | DMust a | DPeekLp a => wf a
  | DRep2 a b => wf a /\ wf b /\ erase a = erase b
  | DSub e a => wf a /\ forall e' l, lang a = Some e' -> Reads e l -> Reads e' l
  end.

(** Parsers that do not skip white space and comments in front. *)
Fixpoint sol (d : dg) : bool :=
  match d with
  | DTok _ | DNode _ _ | DPeekLp _ | DInstr _ | DFirst _ _ _ => true
  | DEmpty | DFail | DTp _ | DRetry _ _ | DOnce _ _ | DRParen => false
  | DSeq a _ => sol a
  | DAlt a b => sol a || sol b
  | DIf LTrivAny _ a b => sol a || sol b
  | DIf _ _ _ _ => true
  | DOpt a | DRep a | DRep1 a | DTill a _ | DLoose _ a | DCtx _ a | DMust a | DHide a | DSub _ a => sol a
  | DTillN a b | DRep2 a b => sol a || sol b
  end.
(** Parsers that read a token before they call [instr]. *)
Fixpoint grd (d : dg) : bool :=
  match d with
  | DTok _ | DEmpty | DFail | DRParen => true
  | DInstr _ => false
  | DSeq a b => grd a && (match lang a with Some e => nonnull e | None => false end || grd b)
  | DAlt a b | DTillN a b | DRep2 a b | DIf _ _ a b | DFirst _ a b => grd a && grd b
  | DOpt a | DRep a | DRep1 a | DTill a _ | DNode _ a | DLoose _ a | DCtx _ a | DTp a | DRetry a _
  | DOnce a _ | DMust a | DPeekLp a | DHide a | DSub _ a => grd a
  end.

(** ** Choices *)
Inductive sel : Set := Arm (b : bool) | Fails | Unknown.
Definition wsel (w : text) (s : sym) : sel :=
  match s with
  | SW w' => Arm (text_eqb w w')
  | SName => if mem_text w reserved then Arm false else Unknown
  | SFlo true | SMem => Unknown
  | _ => Fails
  end.
Definition csel (f : char -> bool) (s : sym) : sel :=
  match s with
  | SEnd => Fails
  | _ => if forallb f (fchars s) then Arm true
         else if forallb (fun c => negb (f c)) (fchars s) then Arm false else Unknown
  end.
Definition lsel (l : lk) (w : text) (h : head) : sel :=
  match l, h with
  | LTrivAny, _ => csel (fun c => text_eqb w [c]) (hsym h)
  | _, H2 s => wsel w s
  | _, H1 SL => Unknown
  | LParenWord, H1 _ => Fails
  | LOptParenWord, H1 s => wsel w s
  end.
Definition bsel (ns : list string) (h : head) : sel :=
  match h with
  | H1 SR => Arm true
  | H1 (SW w) => Arm (mem_text w ns)
  | H1 SName => if forallb (fun w => existsb (String.eqb w) reserved) ns then Arm false else Unknown
  | H2 _ | H1 SL => Arm false
  | _ => Unknown
  end.

Definition isLp (d : dg) : bool :=
  match d with DTok CLp | DCtx _ (DTok CLp) => true | _ => false end.
Definition norec (ns : list string) (h : head) : bool :=
  match h with
  | H1 SR | H1 SEnd => true
  | H2 (SW w) => mem_text w ns
  | _ => false
  end.
(** Heads in front of which a parser fails without recording an error. *)
Fixpoint rej (d : dg) (h : head) : bool :=
  match d with
  | DTok c => rejt c (hsym h)
  | DFail => true
  | DSeq a b =>
      rej a h || (isLp a && negb (sol b) && match h with H2 s => rej b (H1 s) | H1 _ => false end)
  | DAlt a b => rej a h && rej b h
  | DRep1 a => rej a h
  | DIf l w a b =>
      match lsel l w h with Arm true => rej a h | Arm false => rej b h | Fails => true | Unknown => false end
  | DFirst f a b =>
      match csel f (hsym h) with
      | Arm true => rej a h | Arm false => rej b h | Fails => true | Unknown => rej a h && rej b h
      end
  | DNode _ a | DLoose _ a | DCtx _ a | DTp a | DHide a | DSub _ a => rej a h
  | DRetry a ns | DOnce a ns => rej a h && norec ns h
  | DPeekLp _ => match hsym h with SL => false | _ => true end
  | DInstr _ => match h with H1 SR | H1 SEnd => true | _ => false end
  | _ => false
  end.

Definition fany : list head :=
  [H1 SR; H1 SName; H1 (SWs "end"); H1 (SWs "else"); H1 (SWs "block"); H1 (SWs "loop"); H1 (SWs "if");
   H2 SName; H2 (SWs "block"); H2 (SWs "loop"); H2 (SWs "if"); H2 (SWs "then"); H2 (SWs "else"); H2 (SWs "item")].
Definition follow (i : iclass) (h : head) : bool :=
  match i with IPlain => true | _ => hmem h fany end.

Definition front_ok' (a : option rx) : bool :=
  match a with Some e => front e && nonnull e | None => false end.
Definition all_sel (f : head -> sel) (b : bool) (X : list head) : bool :=
  forallb (fun h => match f h with Arm c => Bool.eqb c b | _ => false end) X.
(** [with_heads e F P]: [P] holds of the heads of [e] in front of [F]; true
    when there is no [e]. *)
Definition with_heads (e : option rx) (F : list head) (P : list head -> bool) : bool :=
  match e with
  | Some e => match heads e F with Some X => P X | None => false end
  | None => true
  end.
(** The check, for a parser in front of one of the heads [F]. *)
Fixpoint ok (d : dg) (F : list head) : bool :=
  match d with
  | DTok c => cwf c && (negb (is_num c) || negb (hmem (H1 SEnd) F))
  | DEmpty | DFail | DRParen | DHide _ => true
  | DSeq a b => with_heads (lang b) F (fun X => ok a X) && ok b F && negb (sol b)
  | DAlt a b => ok a F && ok b F && with_heads (lang b) F (forallb (rej a))
  | DOpt a => negb (sol a) && ok a F && forallb (rej a) F
  | DRep a | DRep1 a =>
      negb (sol a) && front_ok' (lang a) && forallb (rej a) F
      && with_heads (map_opt Star (lang a)) F (fun X => ok a X)
  | DRep2 a b =>
      negb (sol a) && negb (sol b) && front_ok' (lang a) && front_ok' (lang b) && forallb (rej a) F
      && with_heads (map_opt Star (lang b)) F
           (fun X => ok b X && with_heads (map_opt Star (lang a)) X (fun Y => ok a Y))
  | DTill a ns =>
      negb (sol a) && front_ok' (lang a) && all_sel (bsel ns) true F
      && with_heads (map_opt Star (lang a)) F
           (fun X => ok a X && with_heads (lang a) X (all_sel (bsel ns) false))
  | DTillN a b =>
      negb (sol a) && negb (sol b) && front_ok' (lang a) && ok b F
      && with_heads (seq_opt (map_opt Star (lang a)) (lang b)) F
           (fun X => ok a X && with_heads (lang a) X (forallb (rej b)))
  | DIf l w a b =>
      ok a F && ok b F && with_heads (lang a) F (all_sel (lsel l w) true)
      && with_heads (lang b) F (all_sel (lsel l w) false)
  | DFirst f a b =>
      ok a F && ok b F && with_heads (lang a) F (all_sel (fun h => csel f (hsym h)) true)
      && with_heads (lang b) F (all_sel (fun h => csel f (hsym h)) false)
  | DNode _ a => ok a F && front_ok' (lang a)
  | DLoose _ a => ok a F && negb (sol a)
  | DCtx _ a | DMust a | DSub _ a => ok a F
  | DTp a | DRetry a _ | DOnce a _ => ok a F && front_ok' (lang a)
  | DPeekLp a => ok a F && with_heads (lang a) F (forallb (fun h => match h with H2 _ => true | _ => false end))
  | DInstr i => forallb (follow i) F
  end.

(** ** Streams and lookahead *)
Lemma texts_app a b : texts (a ++ b) = texts a ++ texts b.
Proof. unfold texts. now rewrite map_app, concat_app. Qed.
Lemma texts_cons k t r : texts ((k, t) :: r) = t ++ texts r.
Proof. reflexivity. Qed.
Lemma sep_texts_nil ts : Separated ts -> texts ts = [] -> ts = [].
Proof.
  destruct ts as [|[k t] ts]; [reflexivity|]. intros H E. pose proof (sep_nonempty _ _ _ H) as Hn.
  rewrite texts_cons in E. apply app_eq_nil in E as [E _]. congruence.
Qed.
Lemma texts_shorter a b : Separated (a ++ b) -> a <> [] -> length (texts b) < length (texts (a ++ b)).
Proof.
  intros H Hn. destruct a as [|[k t] a]; [congruence|]. cbn [app] in *. apply sep_nonempty in H.
  rewrite texts_cons, app_length, texts_app, app_length. destruct t; [congruence|cbn [length]; lia].
Qed.
Lemma texts_le a b : length (texts b) <= length (texts (a ++ b)).
Proof. rewrite texts_app, app_length. lia. Qed.

Lemma tight_head ts : tight ts -> ts = [] \/ exists k t r, ts = (k, t) :: r /\ is_trivia_kind k = false.
Proof.
  destruct ts as [|[k t] r]; [now left|]. intros H. right. exists k, t, r. split; [reflexivity|].
  now apply tight_inv in H.
Qed.
Lemma first_tight ts : tight ts -> first ts = match ts with [] => SEnd | x :: _ => sym1 x end.
Proof. intros H. unfold first. now rewrite H. Qed.
Lemma sym_sl k t : is_trivia_kind k = false -> sym1 (k, t) = SL -> k = L_PAREN.
Proof. intros Hk E. destruct k; try discriminate Hk; try discriminate E; reflexivity. Qed.
Lemma sym_sr k t : is_trivia_kind k = false -> sym1 (k, t) = SR -> k = R_PAREN.
Proof. intros Hk E. destruct k; try discriminate Hk; try discriminate E; reflexivity. Qed.
Lemma sym_end k t : sym1 (k, t) <> SEnd.
Proof. destruct k; discriminate. Qed.

Lemma tight_lp ts : tight ts -> Separated ts -> first ts = SL ->
  exists r, ts = (L_PAREN, T "(") :: r /\ texts ts = c_lparen :: texts r /\ Separated r.
Proof.
  intros Ht Hs Hf. rewrite first_tight in Hf by exact Ht.
  destruct (tight_head ts Ht) as [->|(k & t & r & -> & Hk)]; [discriminate|].
  apply sym_sl in Hf as ->; [|exact Hk]. destruct Hs as ([E _] & _ & Hs). cbn in E. subst t.
  exists r. repeat split; auto.
Qed.
Lemma tight_char ts c x : tight ts -> Separated ts -> texts ts = c :: x -> In c (fchars (first ts)).
Proof.
  intros Ht Hs E. rewrite first_tight by exact Ht.
  destruct (tight_head ts Ht) as [->|(k & t & r & -> & Hk)]; [discriminate|].
  destruct Hs as (Hf & _ & _). destruct (first_char_in k t Hk Hf) as (c' & x' & -> & Hc).
  rewrite texts_cons in E. cbn [app] in E. injection E as -> _. exact Hc.
Qed.
Lemma tight_texts ts : tight ts -> Separated ts -> first ts <> SEnd -> exists c x, texts ts = c :: x.
Proof.
  intros Ht Hs Hf. destruct (texts ts) as [|c x] eqn:E; [|eauto].
  rewrite (sep_texts_nil _ Hs E) in Hf. destruct Hf; reflexivity.
Qed.
Lemma not_lparen ts c x : tight ts -> Separated ts -> first ts <> SL -> texts ts = c :: x -> c <> c_lparen.
Proof.
  intros Ht Hs Hf E. rewrite first_tight in Hf by exact Ht.
  destruct (tight_head ts Ht) as [->|(k & t & r & -> & Hk)]; [discriminate|].
  destruct Hs as (Hx & _ & _). destruct (first_char_in k t Hk Hx) as (c' & x' & -> & Hc).
  rewrite texts_cons in E. cbn [app] in E. injection E as -> _.
  apply (fchars_plain c k (c :: x') Hk Hx Hc). intros ->. now apply Hf.
Qed.
Lemma strip_lp_none ts : tight ts -> Separated ts -> first ts <> SL -> strip_prefix (T "(") (texts ts) = None.
Proof.
  intros Ht Hs Hf. destruct (texts ts) as [|c x] eqn:E; [reflexivity|].
  pose proof (not_lparen ts c x Ht Hs Hf E) as Hc. change (T "(") with [c_lparen]. cbn [strip_prefix].
  destruct (N.eqb_spec c_lparen c) as [<-|]; [congruence|reflexivity].
Qed.
Lemma strip_lp_some ts r : texts ts = c_lparen :: texts r -> strip_prefix (T "(") (texts ts) = Some (texts r).
Proof. intros ->. reflexivity. Qed.

Lemma tight_word ts w : tight ts -> Separated ts -> first ts = SW w ->
  exists k r, ts = (k, w) :: r /\ texts ts = w ++ texts r /\ WordForm w /\ Stop (texts r) /\ Separated r.
Proof.
  intros Ht Hs Hf. rewrite first_tight in Hf by exact Ht.
  destruct (tight_head ts Ht) as [->|(k & t & r & -> & Hk)]; [discriminate|].
  destruct Hs as (Hx & Hr & Hs). apply sym_sw in Hf as [-> Hw]; [|exact Hk|exact Hx].
  exists k, r. repeat split; auto; [now apply (word_kind_form k)|now apply (word_kind_follows k)].
Qed.
Lemma tight_name ts : tight ts -> Separated ts -> first ts = SName ->
  exists t r, ts = (INSTR_NAME, t) :: r /\ texts ts = t ++ texts r /\ WordForm t /\ ~ In t (map T reserved)
    /\ Stop (texts r) /\ Separated r.
Proof.
  intros Ht Hs Hf. rewrite first_tight in Hf by exact Ht.
  destruct (tight_head ts Ht) as [->|(k & t & r & -> & Hk)]; [discriminate|].
  destruct Hs as (Hx & Hr & Hs). apply sym_name in Hf as ->; [|exact Hk].
  exists t, r. destruct Hx as [Hx [Hy _]]. repeat split; auto.
Qed.
Lemma word_none ts : tight ts -> Separated ts -> forallb (fun c => negb (is_ascii_lowercase c)) (fchars (first ts)) = true ->
  Rejects word (texts ts).
Proof.
  intros Ht Hs H. apply word_rej. intros c x E. rewrite forallb_forall in H.
  apply negb_true_iff, H. eapply tight_char; eauto.
Qed.
Lemma wsel_ok w ts : tight ts -> Separated ts ->
  match wsel w (first ts) with
  | Arm b => exists w', la_word (texts ts) = AOk w' /\ text_eqb w w' = b
  | Fails => la_word (texts ts) = AFail
  | Unknown => True
  end.
Proof.
  intros Ht Hs. unfold la_word.
  assert (R : Rejects word (texts ts) -> match word (texts ts) with LOk w0 _ => AOk w0 | LErr _ _ => AFail end = AFail)
    by (intros (a & b & ->); reflexivity).
  destruct (first ts) as [| | | | | | |[]| | |w'] eqn:E; cbn [wsel]; auto;
    try (apply R, word_none; auto; rewrite E; reflexivity).
  - destruct (mem_text w reserved) eqn:Em; [|exact I].
    destruct (tight_name ts Ht Hs E) as (t & r & -> & -> & Hw & Hn & Hr & _).
    rewrite word_exact by assumption. exists t. split; [reflexivity|].
    destruct (text_eqb_spec w t) as [<-|]; [|reflexivity]. now apply mem_text_in in Em.
  - destruct (tight_word ts w' Ht Hs E) as (k & r & -> & -> & Hw & Hr & _).
    rewrite word_exact by assumption. eauto.
Qed.
Lemma csel_ok f ts : tight ts -> Separated ts ->
  match csel f (first ts) with
  | Arm b => exists c x, texts ts = c :: x /\ f c = b
  | Fails => texts ts = []
  | Unknown => True
  end.
Proof.
  intros Ht Hs.
  assert (G : first ts <> SEnd -> match (if forallb f (fchars (first ts)) then Arm true
         else if forallb (fun c => negb (f c)) (fchars (first ts)) then Arm false else Unknown) with
       | Arm b => exists c x, texts ts = c :: x /\ f c = b | Fails => texts ts = [] | Unknown => True end).
  { intros Hn. destruct (tight_texts ts Ht Hs Hn) as (c & x & E).
    pose proof (tight_char ts c x Ht Hs E) as Hc.
    destruct (forallb f (fchars (first ts))) eqn:E1.
    - rewrite forallb_forall in E1. eauto.
    - destruct (forallb (fun c => negb (f c)) (fchars (first ts))) eqn:E2; [|exact I]. rewrite forallb_forall in E2.
      apply E2, negb_true_iff in Hc. eauto. }
  destruct (first ts) eqn:E; cbn [csel]; try (apply G; discriminate).
  rewrite first_tight in E by exact Ht. destruct ts as [|[k t] ts]; [reflexivity|]. now apply sym_end in E.
Qed.
Lemma la_triv_skip f dbg ts : Separated ts -> la_triv f dbg (texts ts) = f (texts (skip ts)).
Proof. intros H. unfold la_triv. now rewrite trivias_exact. Qed.

Lemma lsel_ok dbg l w ts h : Separated ts -> (l <> LTrivAny -> tight ts) -> sees ts h ->
  match lsel l w h with
  | Arm b => exists w', look_of l dbg (texts ts) = AOk w' /\ text_eqb w w' = b
  | Fails => look_of l dbg (texts ts) = AFail
  | Unknown => True
  end.
Proof.
  intros Hs Ht Hh.
  assert (P : forall s, tight ts -> first ts = SL -> second ts = s ->
    exists t, strip_prefix (T "(") (texts ts) = Some t /\
    match wsel w s with
    | Arm b => exists w', la_triv la_word dbg t = AOk w' /\ text_eqb w w' = b
    | Fails => la_triv la_word dbg t = AFail
    | Unknown => True end).
  { intros s Ht' Hf H2. destruct (tight_lp ts Ht' Hs Hf) as (r & E & Et & Hr).
    exists (texts r). split; [now apply strip_lp_some|]. rewrite la_triv_skip by exact Hr.
    assert (Es : first (skip r) = s).
    { rewrite first_skip, <- H2, E. reflexivity. }
    pose proof (wsel_ok w (skip r) (tight_skip r) (sep_skip _ Hr)) as Hw. now rewrite Es in Hw. }
  destruct l.
  - assert (Ht' : tight ts) by (apply Ht; discriminate). destruct h as [s|s]; cbn [lsel look_of].
    + cbn [sees] in Hh. destruct s; try exact I; unfold la_paren_word; rewrite strip_lp_none; auto; congruence.
    + destruct Hh as [Hf H2]. destruct (P s Ht' Hf H2) as (t & E & Hw). unfold la_paren_word. now rewrite E.
  - assert (Ht' : tight ts) by (apply Ht; discriminate). destruct h as [s|s]; cbn [lsel look_of].
    + cbn [sees] in Hh. pose proof (wsel_ok w ts Ht' Hs) as Hw. rewrite Hh in Hw.
      destruct s; try exact I; unfold la_opt_paren_word; rewrite strip_lp_none; auto; congruence.
    + destruct Hh as [Hf H2]. destruct (P s Ht' Hf H2) as (t & E & Hw). unfold la_opt_paren_word. now rewrite E.
  - cbn [lsel look_of]. unfold la_triv_any. rewrite la_triv_skip by exact Hs.
    pose proof (csel_ok (fun c => text_eqb w [c]) (skip ts) (tight_skip ts) (sep_skip _ Hs)) as Hc.
    rewrite first_skip, (sees_hsym _ _ Hh) in Hc.
    destruct (csel _ (hsym h)); auto.
    + destruct Hc as (c & x & -> & Hc). exists [c]. auto.
    + now rewrite Hc.
Qed.
Lemma bsel_ok dbg ns ts h : Separated ts -> sees ts h ->
  match bsel ns h with
  | Arm true => exists w, la_block_end (map T ns) dbg (texts ts) = AOk w
  | Arm false => la_block_end (map T ns) dbg (texts ts) = AFail
  | _ => True
  end.
Proof.
  intros Hs Hh. unfold la_block_end. rewrite la_triv_skip by exact Hs.
  pose proof (tight_skip ts) as Ht. pose proof (sep_skip _ Hs) as Hs'.
  apply sees_skip in Hh. apply sees_hsym in Hh. set (x := skip ts) in *. clearbody x. clear ts Hs.
  assert (R : forall p, Rejects word (texts x) -> exists a b, l_verify word p (texts x) = LErr a b).
  { intros p (a & b & E). unfold l_verify. rewrite E. eauto. }
  assert (S : forall c, c <> c_rparen -> (exists y, texts x = c :: y) -> strip_prefix (T ")") (texts x) = None).
  { intros c Hc (y & ->). change (T ")") with [c_rparen]. cbn [strip_prefix].
    destruct (N.eqb_spec c_rparen c); [congruence|reflexivity]. }
  assert (W : forall w r, texts x = w ++ r -> WordForm w -> strip_prefix (T ")") (texts x) = None).
  { intros w r E (c & y & -> & Hc & _). apply (S c); [intros ->; discriminate|]. rewrite E. cbn [app]. eauto. }
  destruct h as [s|s]; cbn [hsym] in Hh.
  - destruct s; cbn [bsel]; auto.
    + destruct (tight_lp x Ht Hs' Hh) as (r & _ & E & _).
      destruct (R (fun w => existsb (text_eqb w) (map T ns))) as (a & b & E2); [apply word_none; auto; now rewrite Hh|].
      rewrite E2, (S c_lparen); [reflexivity|discriminate|eauto].
    + destruct (R (fun w => existsb (text_eqb w) (map T ns))) as (a & b & E2); [apply word_none; auto; now rewrite Hh|].
      rewrite E2. rewrite first_tight in Hh by exact Ht.
      destruct (tight_head x Ht) as [->|(k & t & r & -> & Hk)]; [discriminate|].
      apply sym_sr in Hh as ->; [|exact Hk]. destruct Hs' as ([Ef _] & _ & _). cbn in Ef. subst t.
      exists (T ")"). reflexivity.
    + destruct (forallb _ ns) eqn:E; [|exact I].
      destruct (tight_name x Ht Hs' Hh) as (t & r & Ex & Et & Hw & Hn & Hr & _).
      rewrite (W _ _ Et Hw). unfold l_verify. rewrite Et, word_exact by assumption.
      destruct (existsb (text_eqb t) (map T ns)) eqn:E2; [|reflexivity]. exfalso. apply Hn.
      apply existsb_exists in E2 as (z & Hz & E2). apply text_eqb_eq in E2 as <-.
      apply in_map_iff in Hz as (v & <- & Hv). rewrite forallb_forall in E. now apply in_reserved, E.
    + destruct (tight_word x w Ht Hs' Hh) as (k & r & Ex & Et & Hw & Hr & _).
      rewrite (W _ _ Et Hw). unfold l_verify. rewrite Et, word_exact by assumption. unfold mem_text.
      destruct (existsb (text_eqb w) (map T ns)); [eauto|reflexivity].
  - cbn [bsel].
    destruct (tight_lp x Ht Hs' Hh) as (r & _ & E & _).
    destruct (R (fun w => existsb (text_eqb w) (map T ns))) as (a & b & E2); [apply word_none; auto; now rewrite Hh|].
    rewrite E2, (S c_lparen); [reflexivity|discriminate|eauto].
Qed.
