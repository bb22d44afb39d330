(** Property C49 for a range: the edit of range formatting, made in a
    well-formed document, gives a document that parses to the same program. *)

From Coq Require Import String List NArith Bool Arith Lia.
From Verif Require Import Text Kind Green SpecParser SpecSyntax SpecFormat Lexer LexerFacts Winnow Grammar Sem Lossless Total
  Bounds Lang TokForm Shape ThmParser ThmSyntax Red Unique LineIndex Cursor ThmPos Doc Ast Binder Nav NavSpec NavFacts
  SpecAction Action ThmAction LexAccept TokAccept Format FmtRequest FmtLang FmtPieces FmtSteps FmtTrivia FmtNode FmtTree FmtDoc FmtParse ThmFormat Respace Relex ThmReparse.
From Verif Require SpecComplete ThmComplete.
Import ListNotations.
Local Open Scope list_scope.

(** ** Tokens as pieces *)

Definition line_first (t : text) : bool :=
  match t with
  | c :: r => N.eqb c c_lf || (N.eqb c c_cr && match r with d :: _ => N.eqb d c_lf | [] => false end)
  | [] => false
  end.
Definition tok_piece (p : kind * text) : piece :=
  if kind_eqb (fst p) WHITESPACE then (if line_first (snd p) then PN else PS) else PT (snd p).

Lemma white_blank c : In c (T " " ++ [c_tab; c_lf; c_cr]) -> is_blank c = true.
Proof. intros [<-|[<-|[<-|[<-|[]]]]]; reflexivity. Qed.
Lemma pieces_rend ts : SpecComplete.Separated ts -> Rend (map tok_piece ts) (SpecComplete.texts ts).
Proof.
  induction ts as [|[k t] ts IH]; [constructor|]. intros (Hf & _ & Hs). specialize (IH Hs). cbn [map]. unfold tok_piece at 1. cbn [fst snd].
  change (SpecComplete.texts ((k, t) :: ts)) with (t ++ SpecComplete.texts ts).
  destruct (kind_eqb k WHITESPACE) eqn:Ek; [|now constructor]. apply kind_eqb_eq in Ek. subst k. destruct Hf as [[Hn Hw] _].
  assert (Hb : blankt t) by (eapply Forall_impl; [|exact Hw]; exact white_blank).
  destruct (line_first t) eqn:El; [|now constructor]. destruct t as [|c t]; [discriminate|]. cbn [line_first] in El.
  inversion Hb as [|? ? _ Hb']; subst. cbn [app]. constructor; auto.
  - apply orb_prop in El as [El|El]; [apply N.eqb_eq in El; subst; cbn; auto|].
    apply andb_prop in El as [El _]. apply N.eqb_eq in El. subst. cbn. auto.
  - intros ->. cbn in El. destruct t as [|d t]; [discriminate|]. apply N.eqb_eq in El. subst. eauto.
Qed.

Definition IdFirst (t : text) : Prop := exists c r, t = c :: r /\ is_id_char c = true.
Lemma oneof_id l t : forallb (fun s => match T s with c :: _ => is_id_char c | [] => false end) l = true -> OneOf l t -> IdFirst t.
Proof.
  intros H Ho. unfold OneOf in Ho. apply in_map_iff in Ho as (s & <- & Hin). rewrite forallb_forall in H. specialize (H _ Hin). destruct (T s) as [|c r]; [discriminate|]. exists c, r. auto.
Qed.
Lemma chars_first t : t <> [] -> Forall (fun c => is_id_char c = true) t -> IdFirst t.
Proof. intros Hn H. destruct H as [|c r Hc _]; [congruence|]. exists c, r. auto. Qed.
Lemma atom_first k t : SpecComplete.TokenForm k t -> k <> WHITESPACE -> kcls k = KAtom -> IdFirst t.
Proof.
  intros [H Hx] Hw Hk.
  assert (D : forall u, UIntForm u -> IdFirst u).
  { intros u [[(c & r & -> & Hc & _)|(d & -> & _)] _]; [exists c, r; split; [reflexivity|]; now apply digit_id|]. exists 48%N. eexists. split; reflexivity. }
  destruct k; cbn [LexForm] in H; try discriminate Hk; try contradiction; try congruence;
    try (revert H; apply oneof_id; reflexivity).
  - destruct H as (c & r & -> & Hc & _). exists c, r. split; [reflexivity|]. now apply lower_id.
  - destruct H as (r & -> & _). exists c_dollar, r. split; reflexivity.
  - destruct H as (s & b & -> & Hs & Hb). destruct Hs as [->|[->| ->]]; [exact (D _ Hb)|eexists _, b; split; reflexivity..].
  - exact (D _ H).
  - apply chars_first; [apply (float_atoms _ H)|now apply float_chars].
  - destruct H as (n & [->| ->] & _); eexists _, _; split; reflexivity.
Qed.

Lemma follows_adj k t ts : SpecComplete.TokenForm k t -> k <> WHITESPACE -> SpecComplete.Follows k (SpecComplete.texts ts) -> SpecComplete.Separated ts ->
  adj t (map tok_piece ts).
Proof.
  intros Hf Hk Hl Hs. pose proof (token_cls _ _ Hf Hk) as Hc. destruct ts as [|[k' u] ts]; [exact I|]. cbn [map]. destruct Hs as (Hu & Hv & _).
  change (SpecComplete.texts ((k', u) :: ts)) with (u ++ SpecComplete.texts ts) in Hl. unfold tok_piece at 1. cbn [fst snd].
  destruct (kind_eqb k' WHITESPACE) eqn:Ek.
  - apply kind_eqb_eq in Ek. subst k'. destruct (line_first u) eqn:El; [exact I|]. cbn [adj]. rewrite Hc. intros E.
    assert (k = LINE_COMMENT) by (destruct k; try discriminate E; reflexivity). subst k. destruct Hu as [[Hn Hw] _]. destruct u as [|c u]; [congruence|].
    cbn [line_first] in El. apply orb_false_elim in El as [E1 E2]. cbn [SpecComplete.Follows] in Hl. cbn [app] in Hl.
    destruct Hl as [Hl|[(r & Hl)|(r & Hl)]]; [discriminate Hl|injection Hl as -> _; now rewrite N.eqb_refl in E1|].
    injection Hl as -> Hl. rewrite N.eqb_refl in E2. cbn [andb] in E2. destruct u as [|d u].
    + cbn [app] in Hl. cbn [SpecComplete.Follows] in Hv. apply (Hv _ _ Hl). cbn. auto.
    + cbn [app] in Hl. injection Hl as -> _. now rewrite N.eqb_refl in E2.
  - assert (Hk' : k' <> WHITESPACE) by (intros ->; discriminate Ek). pose proof (token_cls _ _ Hu Hk') as Hc'.
    destruct (lexok_first _ (token_lexok _ _ Hu Hk')) as (c & r & Eu & Hb). cbn [adj]. rewrite Hc, Hc'. split; [|split].
    + intros E. assert (k = LINE_COMMENT) by (destruct k; try discriminate E; reflexivity). subst k. cbn [SpecComplete.Follows] in Hl. rewrite Eu in Hl.
      destruct Hl as [Hl|[(x & Hl)|(x & Hl)]]; [discriminate Hl|injection Hl as -> _; discriminate Hb|injection Hl as -> _; discriminate Hb].
    + intros E E'. destruct (atom_first _ _ Hu Hk' E') as (c' & r' & Eu' & Hi). rewrite Eu in Eu'. injection Eu' as <- <-.
      assert (X : forall c x, u ++ SpecComplete.texts ts = c :: x -> is_id_char c = false) by (destruct k; try discriminate E; try exact Hl; congruence).
      rewrite (X c (r ++ SpecComplete.texts ts)) in Hi by (rewrite Eu; reflexivity). discriminate.
    + intros E E'. assert (k = L_PAREN) by (destruct k; try discriminate E; reflexivity). subst k.
      assert (k' = LINE_COMMENT) by (destruct k'; try discriminate E'; reflexivity). subst k'. destruct Hu as [(x & -> & _) _]. apply Hl.
      eexists. reflexivity.
Qed.
Lemma pieces_okp ts : SpecComplete.Separated ts -> okp (map tok_piece ts).
Proof.
  induction ts as [|[k t] ts IH]; [constructor|]. intros (Hf & Hl & Hs). specialize (IH Hs). cbn [map]. unfold tok_piece at 1. cbn [fst snd].
  destruct (kind_eqb k WHITESPACE) eqn:Ek; [destruct (line_first t); exact IH|]. assert (Hk : k <> WHITESPACE) by (intros ->; discriminate Ek).
  split; [now apply token_lexok with k|]. split; [now apply follows_adj with k|exact IH].
Qed.
Lemma pieces_texts ts : texts (map tok_piece ts) = map snd (filter visible ts).
Proof.
  induction ts as [|[k t] ts IH]; [reflexivity|]. cbn [map filter]. unfold tok_piece at 1, visible at 1. cbn [fst snd].
  destruct (kind_eqb k WHITESPACE); [destruct (line_first t); exact IH|]. cbn [texts negb map snd]. now rewrite IH.
Qed.

(** ** The first and the last token of a node *)

Definition Fst (x : green) : Prop := exists k t ts, gtokens x = (k, t) :: ts /\ is_trivia_kind k = false.
Definition Lst (x : green) : Prop := exists k t ts, gtokens x = ts ++ [(k, t)] /\ is_trivia_kind k = false.
Definition Firsts (l : list green) : Prop := exists tr x r, l = tr ++ x :: r /\ SpecComplete.Trivia tr /\ Fst x.
Definition Lasts (l : list green) : Prop := exists l' x, l = l' ++ [x] /\ Lst x.

Fixpoint nul (e : SpecComplete.rx) : bool :=
  match e with
  | SpecComplete.Eps | SpecComplete.Star _ => true
  | SpecComplete.Sq a b => nul a && nul b
  | SpecComplete.Or a b => nul a || nul b
  | _ => false
  end.
Fixpoint lead (e : SpecComplete.rx) : bool :=
  match e with
  | SpecComplete.Loose _ _ => false
  | SpecComplete.Sq a b => lead a && (negb (nul a) || lead b)
  | SpecComplete.Or a b => lead a && lead b
  | SpecComplete.Star a => lead a
  | _ => true
  end.
Fixpoint trails (e : SpecComplete.rx) : bool :=
  match e with
  | SpecComplete.Loose _ _ => false
  | SpecComplete.Sq a b => trails b && (negb (nul b) || trails a)
  | SpecComplete.Or a b => trails a && trails b
  | SpecComplete.Star a => trails a
  | _ => true
  end.
Fixpoint nodes_only (e : SpecComplete.rx) : bool :=
  match e with
  | SpecComplete.Kw _ | SpecComplete.Tk _ | SpecComplete.Float _ => false
  | SpecComplete.Sq a b | SpecComplete.Or a b => nodes_only a && nodes_only b
  | SpecComplete.Star a => nodes_only a
  | _ => true
  end.
Fixpoint good (e : SpecComplete.rx) : bool :=
  match e with
  | SpecComplete.Nd _ a => negb (nul a) && lead a && trails a && good a
  | SpecComplete.Loose k a => kind_eqb k BLOCK_IF_THEN && nodes_only a && trails a && good a
  | SpecComplete.Sq a b | SpecComplete.Or a b => good a && good b
  | SpecComplete.Star a => good a
  | _ => true
  end.
Lemma instr_good i : good (SpecComplete.instr_rx i) && lead (SpecComplete.instr_rx i) && trails (SpecComplete.instr_rx i) && negb (nul (SpecComplete.instr_rx i)) && nodes_only (SpecComplete.instr_rx i) = true.
Proof. destruct i; vm_compute; reflexivity. Qed.
Lemma module_good : good (SpecComplete.Star SpecComplete.MODULE_) = true.
Proof. vm_compute. reflexivity. Qed.
Lemma instr_all i : good (SpecComplete.instr_rx i) = true /\ lead (SpecComplete.instr_rx i) = true /\ trails (SpecComplete.instr_rx i) = true
  /\ nul (SpecComplete.instr_rx i) = false /\ nodes_only (SpecComplete.instr_rx i) = true.
Proof.
  pose proof (instr_good i) as H. apply andb_prop in H as [H H5]. apply andb_prop in H as [H H4]. apply andb_prop in H as [H H3]. apply andb_prop in H as [H1 H2].
  apply negb_true_iff in H4. auto.
Qed.

Lemma trivia_app a b : SpecComplete.Trivia a -> SpecComplete.Trivia b -> SpecComplete.Trivia (a ++ b).
Proof. intros. now apply Forall_app. Qed.
Lemma reads_only e l : SpecComplete.Reads e l -> nodes_only e = true -> forall g, In g l -> significant g = true -> exists k cs, g = Node k cs.
Proof.
  induction 1; cbn [nodes_only]; intros N g Hg Hs; try discriminate N;
    try (apply andb_prop in N as [N1 N2]).
  - apply in_app_or in Hg as [Hg|[<-|[]]]; [|eauto]. unfold SpecComplete.Trivia in H. rewrite Forall_forall in H. specialize (H _ Hg).
    destruct g; [|destruct H]. cbn [significant] in Hs. now rewrite H in Hs.
  - destruct Hg as [<-|[]]. eauto.
  - apply IHReads; auto. apply instr_all.
  - destruct Hg.
  - apply in_app_or in Hg as [Hg|Hg]; auto.
  - auto.
  - auto.
  - destruct Hg.
  - apply in_app_or in Hg as [Hg|Hg]; auto.
Qed.
Lemma fst_node k cs : Firsts cs -> SpecComplete.Tight cs -> Fst (Node k cs).
Proof.
  intros (tr & x & r & -> & Ht & k' & t & ts & E & Hk) Hi. destruct tr as [|y tr].
  - exists k', t, (ts ++ gtokenss r). split; [|exact Hk]. cbn [app gtokens map concat]. rewrite E. reflexivity.
  - exfalso. inversion Ht as [|? ? Hy _]; subst. cbn [app SpecComplete.Tight] in Hi. destruct y; [congruence|destruct Hy].
Qed.
Lemma lst_node k cs : Lasts cs -> Lst (Node k cs).
Proof.
  intros (l & x & -> & k' & t & ts & E & Hk). exists k', t, (gtokenss l ++ ts). split; [|exact Hk].
  change (gtokens (Node k (l ++ [x]))) with (gtokenss (l ++ [x])). rewrite gtokenss_app. unfold gtokenss at 2. cbn [map concat]. now rewrite E, app_nil_r, app_assoc.
Qed.
Lemma fst_tok k t : is_trivia_kind k = false -> Fst (Tok k t).
Proof. intros H. exists k, t, []. auto. Qed.
Lemma lst_tok k t : is_trivia_kind k = false -> Lst (Tok k t).
Proof. intros H. exists k, t, []. auto. Qed.
Lemma firsts_one tr x : SpecComplete.Trivia tr -> Fst x -> Firsts (tr ++ [x]).
Proof. intros. exists tr, x, []. auto. Qed.
Lemma lasts_one tr x : Lst x -> Lasts (tr ++ [x]).
Proof. intros. exists tr, x. auto. Qed.
Lemma firsts_app a b : Firsts a -> Firsts (a ++ b).
Proof. intros (tr & x & r & -> & H). exists tr, x, (r ++ b). split; [now rewrite <- app_assoc|exact H]. Qed.
Lemma lasts_app a b : Lasts b -> Lasts (a ++ b).
Proof. intros (l & x & -> & H). exists (a ++ l), x. split; [now rewrite app_assoc|exact H]. Qed.

Definition EndsOK (k : kind) (cs : list green) : Prop :=
  (Fst (Node k cs) \/ (k = BLOCK_IF_THEN /\ forall g, In g cs -> significant g = true -> exists k' cs', g = Node k' cs'))
  /\ (gtokens (Node k cs) = [] \/ Lst (Node k cs)).
Lemma reads_ends e l : SpecComplete.Reads e l -> good e = true ->
  (lead e = true -> (l = [] /\ nul e = true) \/ Firsts l)
  /\ (trails e = true -> (l = [] /\ nul e = true) \/ Lasts l)
  /\ forall g k cs, In g l -> Sub g (Node k cs) -> EndsOK k cs.
Proof.
  assert (Tr : forall tr g k cs, SpecComplete.Trivia tr -> In g tr -> Sub g (Node k cs) -> EndsOK k cs).
  { intros tr g k cs Ht Hg Hs. unfold SpecComplete.Trivia in Ht. rewrite Forall_forall in Ht. specialize (Ht _ Hg). destruct g; [inversion Hs|destruct Ht]. }
  assert (One : forall tr k t, SpecComplete.Trivia tr -> is_trivia_kind k = false ->
    Firsts (tr ++ [Tok k t]) /\ Lasts (tr ++ [Tok k t]) /\ forall g k' cs, In g (tr ++ [Tok k t]) -> Sub g (Node k' cs) -> EndsOK k' cs).
  { intros tr k t Ht Hk. split; [apply firsts_one; auto using fst_tok|]. split; [apply lasts_one; auto using lst_tok|].
    intros g k' cs Hg Hs. apply in_app_or in Hg as [Hg|[<-|[]]]; [eauto|inversion Hs]. }
  induction 1; cbn [good lead trails nul]; intros G.
  - destruct (One tr KEYWORD (T s) H eq_refl) as (A & B & C). auto.
  - destruct (One tr k t H H0) as (A & B & C). auto.
  - destruct (One tr FLOAT t H eq_refl) as (A & B & C). auto.
  - apply andb_prop in G as [G G4]. apply andb_prop in G as [G G3]. apply andb_prop in G as [G1 G2]. apply negb_true_iff in G1.
    destruct (IHReads G4) as (A & B & C). destruct (A G2) as [[_ X]|F]; [congruence|]. destruct (B G3) as [[_ X]|L]; [congruence|].
    pose proof (fst_node k _ F H1) as F'. pose proof (lst_node k _ L) as L'.
    split; [intros _; right; now apply firsts_one|]. split; [intros _; right; now apply lasts_one|].
    intros g k' cs' Hg Hs. apply in_app_or in Hg as [Hg|[<-|[]]]; [eauto|]. inversion Hs as [|? ? c ? Hc Hs']; subst; [|eauto]. split; auto.
  - apply andb_prop in G as [G G4]. apply andb_prop in G as [G G3]. apply andb_prop in G as [G1 G2]. apply kind_eqb_eq in G1. subst k.
    destruct (IHReads G4) as (_ & B & C). split; [discriminate|]. split; [discriminate|]. intros g k' cs' [<-|[]] Hs.
    inversion Hs as [|? ? c ? Hc Hs']; subst; [|eauto]. split.
    + right. split; [reflexivity|]. exact (reads_only _ _ H G2).
    + destruct (B G3) as [[-> _]|L]; [left; reflexivity|right; now apply lst_node].
  - destruct (instr_all i) as (I1 & I2 & I3 & I4 & _). destruct (IHReads I1) as (A & B & C).
    split; [intros _; destruct (A I2) as [[_ X]|]; [congruence|auto]|]. split; [intros _; destruct (B I3) as [[_ X]|]; [congruence|auto]|exact C].
  - split; [auto|]. split; [auto|intros ? ? ? []].
  - apply andb_prop in G as [G1 G2]. destruct (IHReads1 G1) as (A & B & C). destruct (IHReads2 G2) as (A' & B' & C'). split; [|split].
    + intros L. apply andb_prop in L as [L1 L2]. destruct (A L1) as [[-> X]|F]; [|right; now apply firsts_app]. rewrite X in L2 |- *. cbn [negb orb andb app] in *.
      exact (A' L2).
    + intros L. apply andb_prop in L as [L1 L2]. destruct (B' L1) as [[-> X]|F]; [|right; now apply lasts_app]. rewrite X in L2 |- *. cbn [negb orb] in *.
      rewrite app_nil_r, andb_true_r. exact (B L2).
    + intros g k cs Hg Hs. apply in_app_or in Hg as [Hg|Hg]; eauto.
  - apply andb_prop in G as [G1 G2]. destruct (IHReads G1) as (A & B & C). split; [|split; [|exact C]]; intros L; apply andb_prop in L as [L1 L2].
    + destruct (A L1) as [[-> X]|F]; [left; now rewrite X|now right].
    + destruct (B L1) as [[-> X]|F]; [left; now rewrite X|now right].
  - apply andb_prop in G as [G1 G2]. destruct (IHReads G2) as (A & B & C). split; [|split; [|exact C]]; intros L; apply andb_prop in L as [L1 L2].
    + destruct (A L2) as [[-> X]|F]; [left; now rewrite X, orb_true_r|now right].
    + destruct (B L2) as [[-> X]|F]; [left; now rewrite X, orb_true_r|now right].
  - split; [auto|]. split; [auto|intros ? ? ? []].
  - destruct (IHReads1 G) as (A & B & C). destruct (IHReads2 G) as (A' & B' & C'). cbn [lead trails nul] in *. split; [|split].
    + intros L. destruct (A L) as [[-> X]|F]; [exact (A' L)|right; now apply firsts_app].
    + intros L. destruct (B' L) as [[-> X]|F]; [|right; now apply lasts_app]. rewrite app_nil_r. destruct (B L) as [[-> _]|F]; auto.
    + intros g k cs Hg Hs. apply in_app_or in Hg as [Hg|Hg]; eauto.
Qed.
Lemma document_ends tree k cs : SpecComplete.Document tree -> Sub tree (Node k cs) -> k <> ROOT -> EndsOK k cs.
Proof.
  intros (ms & tl & -> & R & Ht & _) Hs Hk. inversion Hs as [|? ? c ? Hc Hs']; subst; [congruence|].
  apply in_app_or in Hc as [Hc|Hc].
  - destruct (reads_ends _ _ R module_good) as (_ & _ & C). eauto.
  - unfold SpecComplete.Trivia in Ht. rewrite Forall_forall in Ht. specialize (Ht _ Hc). destruct c; [inversion Hs'|destruct Ht].
Qed.

(** ** Printing one node in its place *)

Lemma thin_first a k t ts : Thin a ((k, t) :: ts) -> is_trivia_kind k = false -> exists a', a = (k, t) :: a'.
Proof. intros H Hk. inversion H; subst; [eauto|congruence]. Qed.
Lemma thin_last a k t ts : Thin a (ts ++ [(k, t)]) -> is_trivia_kind k = false -> exists a', a = a' ++ [(k, t)].
Proof.
  intros H Hk. revert a H. induction ts as [|p ts IH]; intros a H; cbn [app] in H.
  - inversion H as [|? a0 ? H1|]; subst; [|congruence]. inversion H1; subst. now exists [].
  - inversion H as [|? a0 ? H1|? ? ? ? ? H1]; subst.
    + destruct (IH _ H1) as (a' & ->). now exists (p :: a').
    + exact (IH _ H1).
Qed.
Lemma leaf_solid o k t : is_trivia_kind k = false -> leaf_texts o (k, t) = [t].
Proof. unfold leaf_texts. cbn [fst snd]. destruct k; discriminate || reflexivity. Qed.
Lemma leaves_first o g k t ts : gtokens g = (k, t) :: ts -> is_trivia_kind k = false -> exists r, leaves o (keep g) = t :: r.
Proof.
  intros E Hk. pose proof (keep_thin g) as H. rewrite E in H. destruct (thin_first _ _ _ _ H Hk) as (a' & Ea). unfold leaves. rewrite Ea. cbn [flat_map].
  rewrite (leaf_solid o _ _ Hk). cbn [app]. eauto.
Qed.
Lemma leaves_last o g k t ts : gtokens g = ts ++ [(k, t)] -> is_trivia_kind k = false -> exists r, leaves o (keep g) = r ++ [t].
Proof.
  intros E Hk. pose proof (keep_thin g) as H. rewrite E in H. destruct (thin_last _ _ _ _ H Hk) as (a' & Ea). unfold leaves. rewrite Ea, flat_map_app. cbn [flat_map].
  rewrite (leaf_solid o _ _ Hk). cbn [app]. eauto.
Qed.
Lemma lastp_text p u : lastp p = Some (PT u) -> exists q, p = q ++ [PT u].
Proof.
  unfold lastp. destruct (rev p) as [|x q] eqn:E; [discriminate|]. intros H. injection H as ->. exists (rev q).
  rewrite <- (rev_involutive p), E. reflexivity.
Qed.
Lemma separated_app a b : SpecComplete.Separated (a ++ b) -> SpecComplete.Separated b.
Proof. induction a as [|[k t] a IH]; [auto|]. intros (_ & _ & H). auto. Qed.
(** [a] before other tokens: only the last token of [a] looks at them. *)
Lemma separated_front a b : SpecComplete.Separated (a ++ b) -> okp (map tok_piece a).
Proof.
  intros H. pose proof (pieces_okp _ H) as O. rewrite map_app in O. revert O. generalize (map tok_piece a) (map tok_piece b). clear.
  induction l as [|[t| |] l IH]; intros q; cbn [app okp]; [auto|intros (A & B & C)|apply IH|apply IH].
  split; [exact A|]. split; [|eapply IH; eauto]. destruct l as [|[u| |] l]; auto. exact I.
Qed.
Lemma last_piece A t : lastp (map tok_piece A) = Some (PT t) -> exists A' k, A = A' ++ [(k, t)] /\ k <> WHITESPACE.
Proof.
  intros H. destruct (lastp_text _ _ H) as (q & E). destruct (rev A) as [|[k u] A'] eqn:Er.
  - apply (f_equal (@rev _)) in Er. rewrite rev_involutive in Er. subst A. destruct q; discriminate.
  - apply (f_equal (@rev _)) in Er. rewrite rev_involutive in Er. cbn [rev] in Er. subst A. rewrite map_app in E. apply app_inj_tail in E as [_ E].
    unfold tok_piece in E. cbn [fst snd] in E. destruct (kind_eqb k WHITESPACE) eqn:Ek; [destruct (line_first u); discriminate|]. injection E as ->.
    exists (rev A'), k. split; [reflexivity|]. intros ->. discriminate.
Qed.

Lemma splice A M C p : SpecComplete.Separated (A ++ M ++ C) -> okp p ->
  (p = [] -> M = []) ->
  (linestart p \/ p = [] \/ exists k t ts, M = (k, t) :: ts /\ is_trivia_kind k = false /\ forall u r, p = PT u :: r -> u = t) ->
  (forall u, lastp p = Some (PT u) -> exists k ts, M = ts ++ [(k, u)] /\ is_trivia_kind k = false) ->
  okp (map tok_piece A ++ p ++ map tok_piece C).
Proof.
  intros HS Hp He Hf Hl. assert (HC : SpecComplete.Separated C) by (rewrite app_assoc in HS; eapply separated_app; eauto).
  apply okp_app; [now apply separated_front with (M ++ C)| |].
  - apply okp_app; [exact Hp|now apply pieces_okp|]. unfold junction. destruct (lastp p) as [[u| |]|] eqn:El; auto.
    destruct (Hl u eq_refl) as (k & ts & -> & Hk). rewrite <- app_assoc, app_assoc in HS. apply separated_app in HS. cbn [app] in HS. destruct HS as (H1 & H2 & H3).
    apply follows_adj with k; auto. intros ->. discriminate.
  - unfold junction. destruct (lastp (map tok_piece A)) as [[t| |]|] eqn:El; auto. destruct (last_piece _ _ El) as (A' & k & -> & Hk).
    rewrite <- app_assoc in HS. apply separated_app in HS. cbn [app] in HS. destruct HS as (H1 & H2 & H3). pose proof (follows_adj k t (M ++ C) H1 Hk H2 H3) as Ha.
    destruct Hf as [Hf|[->|(k' & t' & ts & -> & Hk' & Hf)]].
    + destruct p as [|[| |] p]; try destruct Hf. exact I.
    + rewrite (He eq_refl) in Ha. exact Ha.
    + cbn [app map] in Ha. unfold tok_piece at 1 in Ha. cbn [fst snd] in Ha.
      replace (kind_eqb k' WHITESPACE) with false in Ha by (destruct k'; reflexivity || discriminate Hk').
      destruct p as [|[u| |] p].
      * specialize (He eq_refl). discriminate.
      * rewrite (Hf u p eq_refl). exact Ha.
      * cbn [app adj] in *. tauto.
      * exact I.
Qed.

Lemma combine_self (l : list (kind * text)) : combine (map fst l) (map snd l) = l.
Proof. induction l as [|[k t] l IH]; [reflexivity|]. cbn [map combine fst snd]. now rewrite IH. Qed.
Lemma combine_app {X Y} (a c : list X) (b d : list Y) : length a = length b -> combine (a ++ c) (b ++ d) = combine a b ++ combine c d.
Proof. revert b. induction a as [|x a IH]; intros [|y b] H; try discriminate; [reflexivity|]. cbn [app combine]. rewrite IH; auto. Qed.
Lemma forms_visible l : (forall k t, In (k, t) l -> SpecComplete.TokenForm k t) -> Forall2 SpecComplete.TokenForm (map fst (filter visible l)) (map snd (filter visible l)).
Proof.
  intros H. assert (X : forall k t, In (k, t) (filter visible l) -> SpecComplete.TokenForm k t) by (intros k t Hin; apply filter_In in Hin as [Hin _]; auto).
  revert X. generalize (filter visible l). clear. induction l as [|[k t] l IH]; intros X; [constructor|]. constructor; [apply X; now left|]. apply IH. intros. apply X. now right.
Qed.
Lemma no_white l : ~ In WHITESPACE (map fst (filter visible l)).
Proof. intros H. apply in_map_iff in H as ([k t] & E & Hin). cbn [fst] in E. subst k. apply filter_In in Hin as [_ Hin]. discriminate. Qed.

(** A text printed in place of a node [g] of a well-formed document. *)
Lemma printed_in_place dbg o tree g A C p x :
  SpecComplete.Document tree -> gtokens tree = A ++ gtokens g ++ C ->
  okp (map tok_piece A ++ p ++ map tok_piece C) -> Rend p x -> texts p = leaves o (keep g) ->
  exists tree', parse dbg (SpecComplete.texts A ++ x ++ SpecComplete.texts C) = Parsed tree' [] /\ bare tree' = bare tree /\ SpecComplete.Document tree'.
Proof.
  intros Hd Es Hp Hr Ht. pose proof (document_form _ Hd) as Hform.
  assert (HS : SpecComplete.Separated (A ++ gtokens g ++ C)) by (rewrite <- Es; destruct Hd as (? & ? & _ & _ & _ & H); exact H).
  assert (HC : SpecComplete.Separated C) by (rewrite app_assoc in HS; eapply separated_app; eauto).
  assert (HA : Rend (map tok_piece A) (SpecComplete.texts A)).
  { clear -HS. revert HS. generalize (gtokens g ++ C). intros r. induction A as [|[k t] A IH]; [constructor|]. cbn [app]. intros (Hf & Hl & Hs). specialize (IH Hs).
    cbn [map]. unfold tok_piece at 1. cbn [fst snd].
    change (SpecComplete.texts ((k, t) :: A)) with (t ++ SpecComplete.texts A).
    destruct (kind_eqb k WHITESPACE) eqn:Ek; [|now constructor]. apply kind_eqb_eq in Ek. subst k. destruct Hf as [[Hn Hw] _].
    pose proof (pieces_rend [(WHITESPACE, t)]) as X. cbn in X. specialize (X ltac:(split; [split; [split; auto|exact I]|split; [discriminate|exact I]])).
    rewrite app_nil_r in X. change [if line_first t then PN else PS] with ([if line_first t then PN else PS] ++ []) in X.
    change ((if line_first t then PN else PS) :: map tok_piece A) with ([if line_first t then PN else PS] ++ map tok_piece A). apply Rend_app; [|exact IH]. now rewrite app_nil_r in X. }
  pose proof (Rend_app _ _ _ _ HA (Rend_app _ _ _ _ Hr (pieces_rend _ HC))) as HR.
  set (b := fix_comments o).
  assert (Hk : forall k t, In (k, t) (gtokens (keep g)) -> SpecComplete.TokenForm k t).
  { intros k t Hin. apply Hform. rewrite Es. apply in_or_app. right. apply in_or_app. left. eapply Thin_in; [apply keep_thin|exact Hin]. }
  assert (HL : Forall2 (Printed b) (SpecFormat.shown (keep g)) (leaves o (keep g))) by (apply leaves_shown; intros k t Hin; now apply Hk).
  assert (HF : Forall2 SpecComplete.TokenForm (map fst (SpecFormat.shown (keep g))) (leaves o (keep g))).
  { eapply printed_forms; [|exact HL]. intros k t Hin. apply Hk. unfold SpecFormat.shown in Hin. now apply filter_In in Hin. }
  destruct (relex _ _ Hp HR (map fst (filter visible A) ++ map fst (SpecFormat.shown (keep g)) ++ map fst (filter visible C))) as (ts & E1 & E2 & E3).
  - rewrite !texts_app, !pieces_texts, Ht. apply Forall2_app; [apply forms_visible; intros; apply Hform; rewrite Es; apply in_or_app; auto|].
    apply Forall2_app; [exact HF|]. apply forms_visible. intros. apply Hform. rewrite Es. apply in_or_app. right. apply in_or_app. auto.
  - intros Hin. apply in_app_or in Hin as [Hin|Hin]; [now apply no_white in Hin|]. apply in_app_or in Hin as [Hin|Hin]; [|now apply no_white in Hin].
    exact (no_white (gtokens (keep g)) Hin).
  - rewrite !texts_app, !pieces_texts, Ht in E2. rewrite combine_app in E2 by now rewrite !map_length.
    rewrite combine_app in E2 by (rewrite map_length; clear -HL; induction HL; cbn [length]; congruence). rewrite !combine_self in E2.
    pose proof (printed_as _ _ _ HL) as HP.
    destruct (respace_document tree ts Hd) as (tree' & D & G & Hb).
    + unfold ntok. rewrite <- solid_visible, E2, !filter_app, !solid_visible, (printed_solid _ _ _ HP). unfold SpecFormat.shown. rewrite solid_visible, Es, !filter_app.
      f_equal. f_equal. apply Thin_filter; [|apply keep_thin]. intros k t Hk'. unfold solid. cbn [fst]. now rewrite Hk'.
    + exact E3.
    + exists tree'. split; [|auto]. rewrite <- E1, <- G. fold (SpecComplete.texts (gtokens tree')). 
      replace (SpecComplete.texts (gtokens tree')) with (gtext tree') by (apply gtext_tokens). now apply ThmComplete.C48_complete.
Qed.

Section Range.
  Variable s : settings.
  Notation o := (f_options s).
  Notation d := (directive o).

  Lemma node_pieces tree k cs outer : SpecComplete.Document tree -> Ordinary tree -> NoDirective d tree ->
    Sub tree (Node k cs) -> k <> ROOT -> should_ignore o outer = false ->
    let p := pcs (gdoc o outer (Node k cs)) in
    okp p /\ texts p = leaves o (keep (Node k cs))
    /\ (p = [] -> gtokens (Node k cs) = [])
    /\ (linestart p \/ p = [] \/ exists k' t ts, gtokens (Node k cs) = (k', t) :: ts /\ is_trivia_kind k' = false /\ forall u r, p = PT u :: r -> u = t)
    /\ (forall u, lastp p = Some (PT u) -> exists k' ts, gtokens (Node k cs) = ts ++ [(k', u)] /\ is_trivia_kind k' = false).
  Proof.
    intros Hd Ho Hn Hs Hk Hi p. pose proof (ThmComplete.C48_complete true tree Hd) as HP. pose proof (document_fine _ _ Hd Ho Hn) as HF.
    assert (HW : WF o (Node k cs)).
    { destruct (parse_root _ _ _ _ HP) as (rs & ->). inversion Hs as [|? ? c ? Hc Hsub]; subst; [congruence|].
      exact (WF_sub _ _ _ (parse_WF _ _ _ _ _ HP HF Hc) Hsub). }
    destruct (all_print o (Node k cs) HW eq_refl outer Hi) as (A & _ & B & D). fold p in A, B, D.
    destruct (D k cs eq_refl) as (_ & _ & D3). destruct (document_ends tree k cs Hd Hs Hk) as [F L].
    assert (Em : leaves o (keep (Node k cs)) = [] -> gtokens (Node k cs) = []).
    { intros E. destruct L as [L|(k' & t & ts & L & Hk')]; [exact L|]. destruct (leaves_last o _ _ _ _ L Hk') as (r & Er). rewrite Er in E. destruct r; discriminate. }
    split; [exact A|]. split; [exact B|]. split; [|split].
    - intros E. apply Em. now rewrite <- B, E.
    - destruct F as [(k' & t & ts & F & Hk')|[-> F]].
      + right. right. exists k', t, ts. split; [exact F|]. split; [exact Hk'|]. intros u r E. destruct (leaves_first o _ _ _ _ F Hk') as (x & Ex). rewrite Ex, E in B. cbn [texts] in B. congruence.
      + destruct D3 as [E|E]; auto. cbn [has]. destruct (existsb (selects (STok L_PAREN)) cs) eqn:E; [|reflexivity]. exfalso. apply existsb_exists in E as (g & Hg & E).
        destruct g as [k t|]; [|discriminate]. cbn [selects] in E. apply kind_eqb_eq in E. subst k. destruct (F _ Hg eq_refl) as (? & ? & X). discriminate.
    - intros u E. destruct (lastp_text _ _ E) as (q & Eq). rewrite Eq, texts_app in B. cbn [texts] in B.
      destruct L as [L|(k' & t & ts & L & Hk')].
      + exfalso. pose proof (keep_thin (Node k cs)) as Th. rewrite L in Th. assert (E0 : gtokens (keep (Node k cs)) = []) by (revert Th; generalize (gtokens (keep (Node k cs))); intros l Th; now inversion Th).
        unfold leaves in B. rewrite E0 in B. destruct (texts q); discriminate.
      + destruct (leaves_last o _ _ _ _ L Hk') as (r & Er). rewrite Er in B. apply app_inj_tail in B as [_ <-]. eauto.
  Qed.

  Theorem C49_range dbg tree r es :
    SpecComplete.Document tree -> Ordinary tree -> NoDirective d tree ->
    range_formatting s (new_line_index (gtext tree)) tree r = Ans es ->
    exists out tree', Applied (gtext tree) es out
      /\ parse dbg out = Parsed tree' [] /\ bare tree' = bare tree /\ SpecComplete.Document tree'.
  Proof.
    intros Hd Ho Hn H. unfold range_formatting in H. destruct (rowan_range _ _ _) as [a b| |]; [|discriminate..].
    unfold format_range in H. destruct (range_node_in tree a b) as [Hin Hc]. set (n := range_node tree a b) in *.
    pose proof (ThmComplete.C48_complete false tree Hd) as HP. pose proof (document_fine _ _ Hd Ho Hn) as HF.
    assert (Tt : tree_of (gtext tree) = tree) by (unfold tree_of; now rewrite HP).
    destruct (line_col (new_line_index (gtext tree)) (estart n)) as [lc|] eqn:E1; [|discriminate]. cbn [amust abind] in H.
    destruct (format_node o (two_before n) (el n)) as [dd|] eqn:Ed; [|discriminate]. cbn [abind fst snd] in H.
    unfold lsp_range in H. rewrite E1 in H. destruct (line_col (new_line_index (gtext tree)) (eend n)) as [lc'|] eqn:E2; [|discriminate]. cbn [amust abind] in H. injection H as <-.
    set (x := print s (DNest (snd lc) dd)).
    assert (HR : Rend (pcs dd) x) by (change (pcs dd) with (pcs (DNest (snd lc) dd)); unfold x, print; apply print_rend; apply layout_lines).
    assert (In' : InTree (tree_of (gtext tree)) n) by (now rewrite Tt).
    destruct (tok_split (gtext tree) n In') as (A & C & Es & Est). rewrite Tt in Es.
    assert (HS : SpecComplete.Separated (A ++ gtokens (el n) ++ C)) by (rewrite <- Es; destruct Hd as (? & ? & _ & _ & _ & X); exact X).
    assert (X : okp (map tok_piece A ++ pcs dd ++ map tok_piece C) /\ texts (pcs dd) = leaves o (keep (el n))).
    { pose proof (no_directive_ignore _ _ _ Hn Hin) as Hi. unfold format_node in Ed. apply Desc_top in Hin as [Hr|(y & Hy & Hin)].
      - rewrite <- Hr in Es, Ed |- *. destruct (parse_root _ _ _ _ HP) as (cs & ->). cbn [root_of el gkind] in Es, Ed |- *.
        rewrite (proj2 (kind_eqb_eq ROOT ROOT) eq_refl) in Ed. injection Ed as <-.
        assert (Z : A = [] /\ C = []).
        { apply (f_equal (@length _)) in Es. rewrite !app_length in Es. destruct A, C; cbn [length] in Es; auto; lia. }
        destruct Z as [-> ->]. cbn [map app]. rewrite app_nil_r.
        destruct (document_ok o cs) as (O & B).
        + apply Forall_forall. intros c Hc'. eapply parse_WF; eauto.
        + apply root_elements; apply HF.
        + exact (parse_trivia_root _ _ _ _ HP (proj1 HF) eq_refl).
        + auto.
      - destruct Hc as [Hc|[Hc _]].
        { exfalso. apply child_in in Hy as (u & g & v & _ & ->). assert (U : ups n <> []).
          { clear -Hin. induction Hin as [|p q Hp IH Hq]; [discriminate|]. apply child_in in Hq as (? & ? & ? & _ & ->). discriminate. }
          rewrite Hc in U. now apply U. }
        unfold Red.is_node in Hc. destruct (el n) as [|k cs] eqn:En; [discriminate|].
        apply Desc_Sub in Hin. rewrite En in Hin. apply child_in in Hy as (u & g & v & Eg & ->). cbn [el] in Hin.
        destruct (parse_root _ _ _ _ HP) as (rs & ->). cbn [root_of el gchildren] in Eg.
        assert (Hg : In g rs) by (rewrite Eg; apply in_elt).
        pose proof (parse_no_root _ _ _ _ _ _ HP Hg Hin) as Hk. cbn [gkind] in Ed.
        destruct (kind_eqb k ROOT) eqn:Ek; [apply kind_eqb_eq in Ek; contradiction|].
        destruct (shape_of k) as [sh|]; [|discriminate]. injection Ed as <-.
        destruct (node_pieces (Node ROOT rs) k cs (two_before n) Hd Ho Hn (Sub_child _ _ _ _ Hg Hin) Hk Hi) as (P1 & P2 & P3 & P4 & P5).
        split; [|exact P2]. apply splice with (gtokens (Node k cs)); auto. }
    destruct X as [Ok Ht]. destruct (printed_in_place dbg o tree (el n) A C (pcs dd) x Hd Es Ok HR Ht) as (tree' & P & Hb & D).
    exists (SpecComplete.texts A ++ x ++ SpecComplete.texts C), tree'. split; [|auto].
    pose proof (replaced (gtext tree) A (gtokens (el n)) C [(WHITESPACE, x)] [] (lc, lc')) as R. rewrite Tt in R. specialize (R Es).
    rewrite app_nil_r in R. specialize (R eq_refl). cbn [fst snd] in R. rewrite <- Est in R. specialize (R E1).
    rewrite ThmAction.texts_app, tlen_app, <- Est in R. rewrite (eend_tokens n) in E2. specialize (R E2).
    change (SpecAction.texts [(WHITESPACE, x)]) with (x ++ []) in R. rewrite !ThmAction.texts_app, !app_nil_r in R.
    change (SpecAction.texts [(WHITESPACE, x)]) with (x ++ []) in R. rewrite !app_nil_r in R. exact R.
  Qed.
End Range.
Print Assumptions C49_range.

(** The position 75 is in the third instruction; the range from 60 to 78 is
    in the branch around it, which has no parentheses and is printed on lines
    of its own. *)
Definition range_src : text := T "(module (func (result i32)  i32.const 1 if (result i32)   (; c ;) i32.const   2 else (i32.add (i32.const 1)(i32.const 2)) end))".
Example C49_range_example :
  let tree := tree_of range_src in
  let asked r := range_formatting (request_settings 2 true) (new_line_index (gtext tree)) tree r in
  SpecComplete.Document tree /\ Ordinary tree /\ NoDirective (T "fmt-ignore") tree /\ gtext tree = range_src
  /\ asked ((0, 75), (0, 76)) = Ans [(((0, 66), (0, 79)), T "i32.const 2")]
  /\ asked ((0, 60), (0, 78)) = Ans [(((0, 55), (0, 79)), [c_lf] ++ repeat c_space 57 ++ T "i32.const 2")].
Proof.
  cbv zeta. split; [apply ThmComplete.documentb_ok; vm_compute; reflexivity|]. split; [apply ordinaryb_ok; vm_compute; reflexivity|].
  split; [|split; [|split]; vm_compute; reflexivity].
  intros t H. assert (X : forallb (fun p => negb (kind_eqb (fst p) LINE_COMMENT)) (gtokens (tree_of range_src)) = true) by (vm_compute; reflexivity).
  rewrite forallb_forall in X. specialize (X _ H). discriminate X.
Qed.
