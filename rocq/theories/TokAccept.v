(** Token streams: how the parsers of white space, comments and single tokens
    act in front of a separated list of tokens. *)

From Coq Require Import String List NArith Bool Arith Lia.
From Verif Require Import Text Kind Green SpecParser Lexer LexerFacts Winnow Grammar SpecComplete LexAccept.
Import ListNotations.

(** ** Block comments *)
Lemma until_exact a d r :
  nodelim a (d ++ r) -> (d = T "(;" \/ d = T ";)") -> until_comment_delim (a ++ d ++ r) = Some (a, d ++ r).
Proof.
  intros Hn Hd. induction a as [|x a IH].
  - destruct Hd as [->| ->]; reflexivity.
  - destruct Hn as (H1 & H2 & H3). cbn [app until_comment_delim]. rewrite H1, H2. cbn [orb].
    now rewrite IH.
Qed.
Lemma comment_split m : CommentBody m ->
  exists a m', m = a ++ m' /\ (forall r, nodelim a (m' ++ T ";)" ++ r))
    /\ (m' = [] \/ exists x b, m' = T "(;" ++ x ++ T ";)" ++ b /\ CommentBody x /\ CommentBody b).
Proof.
  induction 1 as [|c m H _ (a & m' & -> & Hn & Hm)|x b Hx _ Hb _].
  - exists [], []. repeat split; auto.
  - exists (c :: a), m'. split; [reflexivity|]. split; [|exact Hm]. intros r. cbn [nodelim].
    assert (E2 : forall p q, starts_with [p; q] (c :: a ++ m' ++ T ";)" ++ r)
                             = starts_with [p; q] (c :: (a ++ m') ++ T ";)")).
    { intros p q. destruct a as [|x a]; cbn [app]; [|apply starts_two].
      destruct m' as [|x m']; cbn [app]; [|apply starts_two]. change (T ";)") with [59%N; 41%N].
      cbn [app]. apply starts_two. }
    split; [|split; [|apply Hn]].
    + change (T "(;") with [40%N; 59%N]. rewrite E2. destruct (starts_with _ _) eqn:E; [|reflexivity].
      apply starts_split in E as (z & E). exfalso. apply (H (T "(;") z); [now left|exact E].
    + change (T ";)") with [59%N; 41%N] at 1. rewrite E2. destruct (starts_with _ _) eqn:E; [|reflexivity].
      apply starts_split in E as (z & E). exfalso. apply (H (T ";)") z); [right; now left|exact E].
  - exists [], (T "(;" ++ x ++ T ";)" ++ b). split; [reflexivity|]. split; [intros r; exact I|]. right. eauto.
Qed.
Lemma bc_accept dbg n : forall m r, CommentBody m -> length (m ++ T ";)" ++ r) < n ->
  bc_loop dbg n (m ++ T ";)" ++ r) = POk (m ++ T ";)") r.
Proof.
  induction n as [|n IH]; intros m r Hm Hl; [lia|].
  destruct (comment_split m Hm) as (a & m' & -> & Hn & Hm'). specialize (Hn r). clear Hm.
  rewrite <- app_assoc in *. cbn [bc_loop].
  destruct a as [|x a].
  - cbn [app] in *. destruct Hm' as [->|(y & b & -> & Hy & Hb)]; [reflexivity|].
    assert (E1 : strip_prefix (T ";)") ((T "(;" ++ y ++ T ";)" ++ b) ++ T ";)" ++ r) = None) by reflexivity.
    rewrite E1. rewrite <- !app_assoc.
    pose proof (until_exact [] (T "(;") (y ++ T ";)" ++ b ++ T ";)" ++ r) I (or_introl eq_refl)) as E2.
    cbn [app] in E2 |- *. rewrite E2. 
    assert (E3 : strip_prefix (T "(;") (T "(;" ++ y ++ T ";)" ++ b ++ T ";)" ++ r)
                 = Some (y ++ T ";)" ++ b ++ T ";)" ++ r)) by now apply strip_prefix_spec.
    rewrite E3. rewrite <- !app_assoc in Hl. rewrite !app_length in Hl. cbn [length] in Hl.
    rewrite IH; [|exact Hy|rewrite !app_length; cbn in *; lia].
    rewrite IH; [|exact Hb|rewrite !app_length; cbn in *; lia]. cbn [app]. now rewrite <- !app_assoc.
  - assert (E1 : strip_prefix (T ";)") ((x :: a) ++ m' ++ T ";)" ++ r) = None).
    { destruct Hn as (_ & H & _). unfold starts_with in H. cbn [app].
      destruct (strip_prefix _ _); [discriminate|reflexivity]. }
    rewrite E1. destruct Hm' as [->|(y & b & -> & Hy & Hb)].
    + cbn [app] in Hn, Hl |- *.
      pose proof (until_exact (x :: a) (T ";)") r Hn (or_intror eq_refl)) as E2. cbn [app] in E2. rewrite E2.
      assert (E3 : strip_prefix (T "(;") (T ";)" ++ r) = None) by reflexivity. rewrite E3.
      destruct n as [|n]; [cbn in Hl; lia|]. cbn [bc_loop].
      assert (E4 : strip_prefix (T ";)") (T ";)" ++ r) = Some r) by now apply strip_prefix_spec.
      rewrite E4. now rewrite app_nil_r.
    + rewrite <- !app_assoc in *.
      pose proof (until_exact (x :: a) (T "(;") (y ++ T ";)" ++ b ++ T ";)" ++ r) Hn (or_introl eq_refl)) as E2.
      rewrite E2.
      assert (E3 : strip_prefix (T "(;") (T "(;" ++ y ++ T ";)" ++ b ++ T ";)" ++ r)
                   = Some (y ++ T ";)" ++ b ++ T ";)" ++ r)) by now apply strip_prefix_spec.
      rewrite E3. rewrite !app_length in Hl. cbn [length] in Hl.
      rewrite IH; [|exact Hy|rewrite !app_length; cbn in *; lia].
      rewrite IH; [|exact Hb|rewrite !app_length; cbn in *; lia]. now rewrite <- !app_assoc.
Qed.
Lemma block_comment_exact dbg t r : LexForm BLOCK_COMMENT t -> block_comment dbg (t ++ r) = POk t r.
Proof.
  intros (m & -> & Hm). unfold block_comment. rewrite <- !app_assoc.
  assert (E : strip_prefix (T "(;") (T "(;" ++ m ++ T ";)" ++ r) = Some (m ++ T ";)" ++ r))
    by now apply strip_prefix_spec.
  rewrite E, bc_accept by (assumption || lia). reflexivity.
Qed.

(** ** White space and comments *)
Lemma ws_rej c x : is_multispace c = false -> exists a b, ws (c :: x) = LErr a b.
Proof. intros H. unfold ws, l_while1. cbn [span]. rewrite H. eauto. Qed.
Lemma line_rej c x : c <> c_semi -> exists a b, line_comment (c :: x) = LErr a b.
Proof.
  intros H. unfold line_comment, l_seq, l_lit. change (T ";;") with [59%N; 59%N]. cbn [strip_prefix].
  destruct (N.eqb_spec 59 c) as [<-|]; [destruct H; reflexivity|]. eauto.
Qed.
Lemma trivia_exact dbg k t r :
  is_trivia_kind k = true -> TokenForm k t -> Follows k r -> trivia1 dbg (t ++ r) = POk (Tok k t) r.
Proof.
  intros Hk [Hf _] Hr. destruct k; try discriminate Hk; unfold trivia1.
  - destruct Hf as [Hn Hf]. unfold ws, l_while1. rewrite span_exact.
    + destruct t; [congruence|reflexivity].
    + eapply Forall_impl; [|exact Hf]. intros c Hc. cbn in Hc.
      destruct Hc as [<-|[<-|[<-|[<-|[]]]]]; reflexivity.
    + intros c x E. specialize (Hr c x E). unfold is_multispace.
      destruct (N.eqb_spec c 32) as [->|]; [destruct Hr; cbn; auto|].
      destruct (N.eqb_spec c 9) as [->|]; [destruct Hr; cbn; auto|].
      destruct (N.eqb_spec c 10) as [->|]; [destruct Hr; cbn; auto|].
      destruct (N.eqb_spec c 13) as [->|]; [destruct Hr; cbn; auto|]. reflexivity.
  - destruct Hf as (m & -> & Hm). destruct (ws_rej 59%N (59%N :: m ++ r) eq_refl) as (a & b & E).
    change (59%N :: 59%N :: m ++ r) with ((T ";;" ++ m) ++ r) in E. rewrite E.
    assert (E2 : line_comment ((T ";;" ++ m) ++ r) = LOk (T ";;" ++ m) r); [|now rewrite E2].
    apply (l_seq_exact (l_lit (T ";;")) till_line_ending (T ";;") m); [apply l_lit_exact|].
    unfold till_line_ending. rewrite span_exact.
    + destruct Hr as [->|[(z & ->)|(z & ->)]]; reflexivity.
    + eapply Forall_impl; [|exact Hm]. intros c [H1 H2]. apply N.eqb_neq in H1, H2. now rewrite H1, H2.
    + intros c x E2. destruct Hr as [->|[(z & ->)|(z & ->)]]; [discriminate| |]; injection E2 as <- _; reflexivity.
  - pose proof Hf as (m & -> & Hm).
    destruct (ws_rej 40%N ((59%N :: m ++ T ";)") ++ r) eq_refl) as (a & b & E).
    change (40%N :: (59%N :: m ++ T ";)") ++ r) with ((T "(;" ++ m ++ T ";)") ++ r) in E. rewrite E.
    destruct (line_rej 40%N ((59%N :: m ++ T ";)") ++ r)) as (a2 & b2 & E2); [discriminate|].
    change (40%N :: (59%N :: m ++ T ";)") ++ r) with ((T "(;" ++ m ++ T ";)") ++ r) in E2. rewrite E2.
    rewrite block_comment_exact by exact Hf. reflexivity.
Qed.

(** ** Symbols *)
Inductive sym : Type :=
| SEnd | SL | SR | SId | SStr | SInt | SUInt | SFlo (named : bool) | SMem | SName | SW (w : text).

Definition sym1 (x : kind * text) : sym :=
  match fst x with
  | L_PAREN => SL | R_PAREN => SR | IDENT => SId | STRING => SStr | INT => SInt | UNSIGNED_INT => SUInt
  | FLOAT => SFlo (starts_alpha (snd x)) | MEM_ARG => SMem | INSTR_NAME => SName
  | _ => SW (snd x)
  end.

Definition digit_chars : list char := T "0123456789".
Definition lower_chars : list char := T "abcdefghijklmnopqrstuvwxyz".
(** The characters the text of a symbol can start with. *)
Definition fchars (s : sym) : list char :=
  match s with
  | SEnd => [] | SL => [c_lparen] | SR => [c_rparen] | SId => [c_dollar] | SStr => [c_quote]
  | SInt => T "+-" ++ digit_chars | SUInt => digit_chars
  | SFlo false => T "+-" ++ digit_chars | SFlo true => T "in"
  | SMem => T "oa" | SName => lower_chars
  | SW w => match w with c :: _ => [c] | [] => [] end
  end.

Lemma digit_in c : is_ascii_digit c = true -> In c digit_chars.
Proof.
  unfold is_ascii_digit, in_range. rewrite andb_true_iff, !N.leb_le. intros H.
  assert (E : In c (map N.of_nat (List.seq 48 10))); [|exact E].
  rewrite <- (N2Nat.id c). apply in_map, in_seq. lia.
Qed.
Lemma lower_in c : is_ascii_lowercase c = true -> In c lower_chars.
Proof.
  unfold is_ascii_lowercase, in_range. rewrite andb_true_iff, !N.leb_le. intros H.
  assert (E : In c (map N.of_nat (List.seq 97 26))); [|exact E].
  rewrite <- (N2Nat.id c). apply in_map, in_seq. lia.
Qed.
Definition wordb (t : text) : bool :=
  match t with c :: r => is_ascii_lowercase c && forallb is_id_char r | [] => false end.
Lemma wordb_ok t : wordb t = true -> WordForm t.
Proof.
  destruct t as [|c r]; [discriminate|]. cbn [wordb]. rewrite andb_true_iff, forallb_forall. intros [H1 H2].
  exists c, r. repeat split; auto. now apply Forall_forall.
Qed.
(** The words of a kind. *)
Definition kwords (k : kind) : list string :=
  match k with
  | KEYWORD => keywords
  | NUM_TYPE => ["i32"; "i64"; "f32"; "f64"]
  | VEC_TYPE => ["v128"]
  | REF_TYPE => ["funcref"; "externref"]
  | HEAP_TYPE => ["func"; "extern"]
  | SHARE => ["shared"; "unshared"]
  | _ => []
  end%string.
Definition word_kind (k : kind) : bool :=
  match k with KEYWORD | NUM_TYPE | VEC_TYPE | REF_TYPE | HEAP_TYPE | SHARE => true | _ => false end.
Lemma word_kind_form k t : word_kind k = true -> TokenForm k t -> In t (map T (kwords k)) /\ WordForm t.
Proof.
  intros Hk [Hf _].
  assert (Hi : In t (map T (kwords k))) by (destruct k; try discriminate Hk; exact Hf).
  split; [exact Hi|]. apply wordb_ok.
  assert (A : forallb wordb (map T (kwords k)) = true) by (destruct k; try discriminate Hk; reflexivity).
  rewrite forallb_forall in A. now apply A.
Qed.
Lemma word_kind_follows k r : word_kind k = true -> Follows k r -> Stop r.
Proof. intros Hk H. destruct k; try discriminate Hk; exact H. Qed.

Lemma first_char_in k t : is_trivia_kind k = false -> TokenForm k t ->
  exists c x, t = c :: x /\ In c (fchars (sym1 (k, t))).
Proof.
  intros Hk H.
  destruct (word_kind k) eqn:Ew.
  { destruct (word_kind_form k t Ew H) as [_ (c & x & -> & _)]. exists c, x. split; [reflexivity|].
    destruct k; try discriminate Ew; now left. }
  destruct H as [Hf Hx].
  destruct k; try discriminate Hk; try discriminate Ew; try (destruct Hf; fail); try (destruct Hx; fail).
  - exists c_lparen, []. split; [exact Hf|now left].
  - exists c_rparen, []. split; [exact Hf|now left].
  - destruct Hf as (c & r & -> & Hc & _). exists c, r. split; [reflexivity|]. now apply lower_in.
  - destruct Hf as (r & -> & _). eexists _, _. split; [reflexivity|now left].
  - destruct Hx as (b & _ & ->). eexists _, _. split; [reflexivity|now left].
  - destruct Hf as (s & b & -> & Hs & Hu). apply uint_first in Hu as (d & t' & -> & Hd).
    destruct Hs as [->|[->| ->]]; eexists _, _; (split; [reflexivity|]); cbn; auto.
    right; right. now apply digit_in.
  - apply uint_first in Hf as (d & t' & -> & Hd). exists d, t'. split; [reflexivity|].
    now apply digit_in.
  - destruct Hf as (s & b & -> & Hs & Hb).
    assert (G : forall c r, (c = c_plus \/ c = c_minus \/ is_ascii_digit c = true) ->
       In c (fchars (sym1 (FLOAT, c :: r)))).
    { intros c r Hc. cbn [sym1 fst snd starts_alpha].
      assert (E : is_ascii_lowercase c = false).
      { destruct Hc as [->|[->|Hc]]; try reflexivity. revert Hc.
        unfold is_ascii_lowercase, is_ascii_digit, in_range.
        rewrite andb_true_iff, andb_false_iff, !N.leb_le, !N.leb_gt. lia. }
      rewrite E. destruct Hc as [->|[->|Hc]]; [now left|right; now left|].
      apply in_or_app. right. now apply digit_in. }
    destruct Hs as [->|[->| ->]]; [|eexists _, _; split; [reflexivity|apply G; auto]|eexists _, _; split; [reflexivity|apply G; auto]].
    fold (FloatBody b) in Hb. cbn [app].
    destruct Hb as [(x0 & y & -> & <- & _)|[(d & z & -> & (q & d' & -> & Hd & _) & _)|[->|[->|(x0 & h & -> & <- & Hh)]]]];
      eexists _, _; (split; [reflexivity|]); try (apply G; auto; fail); cbn; auto.
  - destruct Hf as (n & [->| ->] & _); eexists _, _; (split; [reflexivity|]); cbn; auto.
Qed.

Lemma fchars_plain c k t : is_trivia_kind k = false -> TokenForm k t -> In c (fchars (sym1 (k, t))) ->
  is_multispace c = false /\ c <> c_semi /\ (k <> L_PAREN -> c <> c_lparen).
Proof.
  intros Hk H Hc.
  set (bad := fun c => negb (is_multispace c) && negb (N.eqb c c_semi) && negb (N.eqb c c_lparen)).
  destruct (kind_eqb k L_PAREN) eqn:Ek.
  { apply kind_eqb_eq in Ek as ->. destruct Hc as [<-|[]]. repeat split; try discriminate. congruence. }
  assert (G : bad c = true).
  { destruct (word_kind k) eqn:Ew.
    - destruct (word_kind_form k t Ew H) as [_ (x & y & -> & Hx & _)].
      assert (E : c = x) by (destruct k; try discriminate Ew; destruct Hc as [<-|[]]; reflexivity). subst x.
      apply lower_in in Hx.
      assert (A : forallb bad lower_chars = true) by reflexivity. rewrite forallb_forall in A. now apply A.
    - assert (A : forallb bad (fchars (sym1 (k, t))) = true).
      { destruct H as [Hf Hx]. destruct k; try discriminate Hk; try discriminate Ew; try discriminate Ek;
          try reflexivity; try (destruct Hf; fail); try (destruct Hx; fail).
        cbn [sym1 fst snd]. destruct (starts_alpha t); reflexivity. }
      rewrite forallb_forall in A. now apply A. }
  unfold bad in G. apply andb_prop in G as [G G3]. apply andb_prop in G as [G1 G2].
  apply negb_true_iff in G1, G2, G3. apply N.eqb_neq in G2, G3. auto.
Qed.
Lemma trivia_none dbg k t r :
  is_trivia_kind k = false -> TokenForm k t -> Follows k r -> trivia1 dbg (t ++ r) = PErr.
Proof.
  intros Hk H Hr. destruct (first_char_in k t Hk H) as (c & x & -> & Hc).
  destruct (fchars_plain c k (c :: x) Hk H Hc) as (H1 & H2 & H3).
  unfold trivia1. cbn [app].
  destruct (ws_rej c (x ++ r) H1) as (a & b & ->). destruct (line_rej c (x ++ r) H2) as (a2 & b2 & ->).
  unfold block_comment. change (T "(;") with [40%N; 59%N]. cbn [strip_prefix].
  destruct (N.eqb_spec 40 c) as [<-|]; [|reflexivity].
  assert (k = L_PAREN).
  { destruct (kind_eqb k L_PAREN) eqn:E; [now apply kind_eqb_eq|]. exfalso. apply H3; [|reflexivity].
    intros ->. discriminate E. }
  subst k. destruct H as [Hf _]. injection Hf as ->. cbn [app].
  destruct r as [|y r]; [reflexivity|]. destruct (N.eqb_spec 59 y) as [<-|]; [|reflexivity].
  exfalso. apply Hr. now exists r.
Qed.

Fixpoint skip (ts : list (kind * text)) : list (kind * text) :=
  match ts with
  | (k, t) :: r => if is_trivia_kind k then skip r else ts
  | [] => []
  end.
Fixpoint lead (ts : list (kind * text)) : list green :=
  match ts with
  | (k, t) :: r => if is_trivia_kind k then Tok k t :: lead r else []
  | [] => []
  end.
Lemma sep_nonempty k t r : Separated ((k, t) :: r) -> t <> [].
Proof.
  intros (H & _). destruct (is_trivia_kind k) eqn:E.
  - destruct H as [Hf _]. destruct k; try discriminate E.
    + apply Hf.
    + destruct Hf as (m & -> & _). discriminate.
    + destruct Hf as (m & -> & _). discriminate.
  - destruct (first_char_in k t E H) as (c & x & -> & _). discriminate.
Qed.
Lemma trivia_nil dbg : trivia1 dbg [] = PErr.
Proof. reflexivity. Qed.
Lemma trivias_exact dbg ts : Separated ts ->
  trivias dbg (texts ts) = POk (lead ts) (texts (skip ts)).
Proof.
  intros H. unfold trivias.
  assert (G : forall ts n, Separated ts -> length (texts ts) < n ->
    trivias_loop dbg n (texts ts) = POk (lead ts) (texts (skip ts))); [|apply G; [exact H|apply Nat.lt_succ_diag_r]].
  clear ts H. induction ts as [|[k t] ts IH]; intros n H Hn; (destruct n as [|n]; [lia|]); [reflexivity|].
  pose proof (sep_nonempty _ _ _ H) as Hne. destruct H as (Hf & Hr & Hs).
  change (texts ((k, t) :: ts)) with (t ++ texts ts) in *. cbn [trivias_loop lead skip].
  destruct (is_trivia_kind k) eqn:Ek.
  - rewrite (trivia_exact dbg k t) by assumption. rewrite IH; [reflexivity|exact Hs|].
    rewrite app_length in Hn. destruct t; [congruence|cbn in Hn; lia].
  - rewrite (trivia_none dbg k t) by assumption. reflexivity.
Qed.
Lemma lead_skip ts : ts = gtokenss (lead ts) ++ skip ts.
Proof.
  induction ts as [|[k t] ts IH]; [reflexivity|]. cbn [lead skip]. destruct (is_trivia_kind k); [|reflexivity].
  change (gtokenss (Tok k t :: lead ts)) with ((k, t) :: gtokenss (lead ts)). cbn [app]. congruence.
Qed.
Lemma sep_skip ts : Separated ts -> Separated (skip ts).
Proof.
  induction ts as [|[k t] ts IH]; [auto|]. intros (H1 & H2 & H3). cbn [skip].
  destruct (is_trivia_kind k); [auto|]. cbn [Separated]. auto.
Qed.
Lemma skip_skip ts : skip (skip ts) = skip ts.
Proof.
  induction ts as [|[k t] ts IH]; [reflexivity|]. cbn [skip]. destruct (is_trivia_kind k) eqn:E; [exact IH|].
  cbn [skip]. now rewrite E.
Qed.

(** ** Token parsers *)
Inductive tcls : Type :=
| CLp | CKw (s : string) | CWords (k : kind) | CName | CId | CStr | CInt | CUInt | CFloat (named : bool) | CMem.
Definition ckind (c : tcls) : kind :=
  match c with
  | CLp => L_PAREN | CKw _ => KEYWORD | CWords k => k | CName => INSTR_NAME | CId => IDENT | CStr => STRING
  | CInt => INT | CUInt => UNSIGNED_INT | CFloat _ => FLOAT | CMem => MEM_ARG
  end.
Definition clex (c : tcls) : lex :=
  match c with
  | CLp => l_lit (T "(") | CKw s => l_verify word (text_eqb (T s)) | CWords k => l_verify word (words (kwords k))
  | CName => word | CId => ident_l | CStr => string_l
  | CInt => int_l | CUInt => unsigned_int_l | CFloat _ => float_l | CMem => mem_arg_l
  end.
Definition crx (c : tcls) : rx :=
  match c with CKw s => Kw s | CFloat b => Float b | _ => Tk (ckind c) end.
Definition is_num (c : tcls) : bool := match c with CInt | CFloat _ => true | _ => false end.
(** Token parsers whose kind has the words it accepts. *)
Definition cwf (c : tcls) : bool :=
  match c with
  | CWords k => word_kind k && negb (kind_eqb k KEYWORD)
  | CKw s => existsb (String.eqb s) keywords
  | _ => true
  end.

Lemma clex_exact c t r :
  cwf c = true -> TokenForm (ckind c) t -> (forall s, c = CKw s -> t = T s) ->
  Follows (ckind c) r -> (is_num c = true -> r <> []) -> clex c (t ++ r) = LOk t r.
Proof.
  intros Hw Hf Hs Hr Hn. destruct c; cbn [clex ckind is_num] in *.
  - destruct Hf as [-> _]. apply l_lit_exact.
  - rewrite (Hs s eq_refl) in *. unfold l_verify.
    rewrite word_exact; [now rewrite text_eqb_refl|now apply (word_kind_form KEYWORD)|exact Hr].
  - apply andb_prop in Hw as [Hw _]. destruct (word_kind_form k t Hw Hf) as [Hi Hwf]. unfold l_verify.
    rewrite word_exact; [|exact Hwf|now apply (word_kind_follows k)].
    replace (words (kwords k) t) with true; [reflexivity|]. symmetry. unfold words. apply existsb_exists.
    exists t. split; [exact Hi|apply text_eqb_refl].
  - destruct Hf as [Hf _]. now apply word_exact.
  - destruct Hf as [Hf _]. now apply ident_exact.
  - destruct Hf as [_ (b & Hb & ->)]. now apply string_exact.
  - destruct Hf as [Hf _]. apply int_exact; auto.
  - destruct Hf as [Hf _]. now apply uint_exact.
  - apply float_exact; auto.
  - destruct Hf as [Hf _]. now apply mem_arg_exact.
Qed.

(** Characters a token parser can start on. *)
Definition cstart (c : tcls) (x : char) : bool :=
  match c with
  | CLp => N.eqb x c_lparen
  | CKw _ | CWords _ | CName => is_ascii_lowercase x
  | CId => N.eqb x c_dollar | CStr => N.eqb x c_quote
  | CInt => is_sign x || is_ascii_digit x | CUInt => is_ascii_digit x
  | CFloat _ => is_sign x || is_ascii_digit x || N.eqb x 105%N || N.eqb x 110%N
  | CMem => N.eqb x 111%N || N.eqb x 97%N
  end.
Lemma clex_rej_start c t : (forall x y, t = x :: y -> cstart c x = false) -> Rejects (clex c) t.
Proof.
  intros H. destruct c; cbn [clex cstart] in *.
  - apply lit1_rej. intros c y E. specialize (H c y E). now apply N.eqb_neq.
  - apply rej_ok. now apply word_rej.
  - apply rej_ok. now apply word_rej.
  - now apply word_rej.
  - apply l_seq_rej, lit1_rej. intros c y E. specialize (H c y E). now apply N.eqb_neq.
  - apply l_seq_rej, lit1_rej. intros c y E. specialize (H c y E). now apply N.eqb_neq.
  - assert (Es : l_opt (l_one is_sign) ([] ++ t) = LOk [] t).
    { apply sign_exact; [now left|]. intros c x E. specialize (H c x E). now apply orb_false_elim in H. }
    apply (l_seq_rej2 _ _ [] t Es). apply l_seq_rej. unfold unsigned_int_l. apply rej_ok.
    destruct t as [|c x]; [now exists [], []|]. specialize (H c x eq_refl). apply orb_false_elim in H as [_ H].
    exists [], (c :: x). change (T "0x") with [48%N; 120%N]. cbn [strip_prefix].
    destruct (N.eqb_spec 48 c) as [<-|]; [discriminate H|]. unfold unsigned_dec, l_seq, l_one. now rewrite H.
  - unfold unsigned_int_l. apply rej_ok.
    destruct t as [|c x]; [now exists [], []|]. specialize (H c x eq_refl).
    exists [], (c :: x). change (T "0x") with [48%N; 120%N]. cbn [strip_prefix].
    destruct (N.eqb_spec 48 c) as [<-|]; [discriminate H|]. unfold unsigned_dec, l_seq, l_one. now rewrite H.
  - assert (Es : l_opt (l_one is_sign) ([] ++ t) = LOk [] t).
    { apply sign_exact; [now left|]. intros c x E. specialize (H c x E).
      apply orb_false_elim in H as [H _]. apply orb_false_elim in H as [H _]. now apply orb_false_elim in H. }
    apply rej_ok. apply (l_seq_rej2 _ _ [] t Es). apply l_seq_rej.
    destruct t as [|c x]; [now exists [], []|]. specialize (H c x eq_refl).
    apply orb_false_elim in H as [H H4]. apply orb_false_elim in H as [H H3].
    apply orb_false_elim in H as [_ H2].
    apply alt_rej; [apply l_seq_rej, lit_rej|].
    { change (T "0x") with [48%N; 120%N]. cbn [strip_prefix].
      destruct (N.eqb_spec 48 c) as [<-|]; [discriminate H2|]. reflexivity. }
    apply alt_rej; [apply l_seq_rej, l_seq_rej, l_seq_rej; exists [], (c :: x); cbn [l_one]; now rewrite H2|].
    apply alt_rej; [apply lit_rej|apply l_seq_rej, lit_rej].
    + change (T "inf") with [105%N; 110%N; 102%N]. cbn [strip_prefix]. rewrite N.eqb_sym, H3. reflexivity.
    + change (T "nan") with [110%N; 97%N; 110%N]. cbn [strip_prefix]. rewrite N.eqb_sym, H4. reflexivity.
  - apply l_seq_rej. destruct t as [|c x]; [now exists [], []|]. specialize (H c x eq_refl).
    apply orb_false_elim in H as [H1 H2]. apply alt_rej; apply lit_rej.
    + change (T "offset") with (111%N :: T "ffset"). cbn [strip_prefix]. rewrite N.eqb_sym, H1. reflexivity.
    + change (T "align") with (97%N :: T "lign"). cbn [strip_prefix]. rewrite N.eqb_sym, H2. reflexivity.
Qed.

Definition mem_text (w : text) (l : list string) : bool := existsb (text_eqb w) (map T l).
(** Symbols a token parser rejects. *)
Definition rejt (c : tcls) (s : sym) : bool :=
  forallb (fun x => negb (cstart c x)) (fchars s)
  || match c, s with
     | CKw k, SW w => negb (text_eqb (T k) w)
     | CWords k, SW w => negb (mem_text w (kwords k))
     | CKw k, SName => existsb (String.eqb k) reserved
     | CWords k, SName => forallb (fun w => existsb (String.eqb w) reserved) (kwords k)
     | CInt, SFlo _ => true
     | CFloat _, SName => true
     | CFloat _, SW w => negb (starts_with (T "inf") w) && negb (starts_with (T "nan") w)
     | CMem, SName => true
     | CMem, SW w => negb (starts_with (T "offset=") w) && negb (starts_with (T "align=") w)
     | _, _ => false
     end.

Lemma mem_text_in w l : mem_text w l = true <-> In w (map T l).
Proof.
  unfold mem_text. rewrite existsb_exists. split.
  - intros (x & Hx & E). apply text_eqb_eq in E as ->. exact Hx.
  - intros H. exists w. split; [exact H|apply text_eqb_refl].
Qed.
Lemma sym_sw k t w : is_trivia_kind k = false -> TokenForm k t -> sym1 (k, t) = SW w ->
  w = t /\ word_kind k = true.
Proof.
  intros Hk [Hf Hx] E. destruct k; try discriminate Hk; try destruct Hf; try destruct Hx;
    try discriminate E; injection E as <-; split; auto.
Qed.
Lemma sym_name k t : is_trivia_kind k = false -> sym1 (k, t) = SName -> k = INSTR_NAME.
Proof. intros Hk E. destruct k; try discriminate Hk; try discriminate E; reflexivity. Qed.
Lemma sym_flo k t b : is_trivia_kind k = false -> sym1 (k, t) = SFlo b -> k = FLOAT.
Proof. intros Hk E. destruct k; try discriminate Hk; try discriminate E; reflexivity. Qed.
Lemma starts_prefix p t : starts_with p t = true <-> Prefix p t.
Proof.
  split.
  - intros H. apply starts_split in H as (r & ->). now exists r.
  - intros (r & ->). unfold starts_with.
    assert (E : strip_prefix p (p ++ r) = Some r) by now apply strip_prefix_spec. now rewrite E.
Qed.
Lemma in_reserved s : existsb (String.eqb s) reserved = true -> In (T s) (map T reserved).
Proof. rewrite existsb_exists. intros (x & Hx & E). apply String.eqb_eq in E as ->. now apply in_map. Qed.
Lemma word_verify_rej t r p : WordForm t -> Stop r -> p t = false -> Rejects (l_verify word p) (t ++ r).
Proof. intros H1 H2 H3. exists [], (t ++ r). unfold l_verify. now rewrite word_exact, H3. Qed.
Lemma wordform_alpha t : WordForm t -> starts_alpha t = true.
Proof. intros (c & r & -> & H & _). exact H. Qed.
Lemma digits_chars p t : Digits p t -> (forall c, p c = true -> is_id_char c = true) ->
  Forall (fun c => is_id_char c = true) t.
Proof.
  intros (d & r & -> & Hd & Hr) Hp. constructor; [auto|]. eapply Forall_impl; [|exact Hr].
  intros a [Ha| ->]; auto.
Qed.
Lemma float_chars t : LexForm FLOAT t -> Forall (fun c => is_id_char c = true) t.
Proof.
  assert (S : forall s, SignForm s -> Forall (fun c => is_id_char c = true) s).
  { intros s [->|[->| ->]]; repeat constructor. }
  assert (D : forall d, Digits is_ascii_digit d -> Forall (fun c => is_id_char c = true) d)
    by (intros; eapply digits_chars; eauto using digit_id).
  assert (Hx : forall d, Digits is_ascii_hexdigit d -> Forall (fun c => is_id_char c = true) d)
    by (intros; eapply digits_chars; eauto using hex_id).
  assert (F : forall p t, (forall d, Digits p d -> Forall (fun c => is_id_char c = true) d) ->
    TOpt (Cat (eq [c_dot]) (TOpt (Digits p))) t -> Forall (fun c => is_id_char c = true) t).
  { intros p t' Hp [->|(a & b & -> & <- & [->|Hb])]; [constructor|repeat constructor|].
    constructor; [reflexivity|auto]. }
  assert (E : forall e1 e2 t, is_id_char e1 = true -> is_id_char e2 = true ->
    TOpt (Cat (fun e => e = [e1] \/ e = [e2]) (Cat SignForm (Digits is_ascii_digit))) t ->
    Forall (fun c => is_id_char c = true) t).
  { intros e1 e2 t' H1 H2 [->|(a & b & -> & Ha & (s & d & -> & Hs & Hd))]; [constructor|].
    apply Forall_app. split; [destruct Ha as [->| ->]; repeat constructor; auto|].
    apply Forall_app. auto. }
  intros (s & b & -> & Hs & Hb). apply Forall_app. split; [auto|]. fold (FloatBody b) in Hb.
  destruct Hb as [(x0 & y & -> & <- & (h & z & -> & Hh & (f & e & -> & Hf & He)))|
                 [(d & z & -> & Hd & (f & e & -> & Hf & He))|[->|[->|(x0 & h & -> & <- & Hh)]]]].
  - apply Forall_app. split; [repeat constructor|]. apply Forall_app. split; [auto|].
    apply Forall_app. split; [eapply (F is_ascii_hexdigit); eauto|].
    apply (E 112%N 80%N); auto.
  - apply Forall_app. split; [auto|]. apply Forall_app. split; [eapply (F is_ascii_digit); eauto|].
    apply (E 101%N 69%N); auto.
  - repeat constructor.
  - repeat constructor.
  - apply Forall_app. split; [repeat constructor|auto].
Qed.
Lemma id_prefix_unique a b c d :
  Forall (fun x => is_id_char x = true) a -> Forall (fun x => is_id_char x = true) b ->
  Stop c -> Stop d -> a ++ c = b ++ d -> a = b.
Proof.
  intros Ha. revert b. induction Ha as [|x a Hx _ IH]; intros b Hb Hc Hd E.
  - destruct b as [|y b]; [reflexivity|]. cbn [app] in E. subst c. specialize (Hc _ _ eq_refl).
    apply Forall_inv in Hb. congruence.
  - destruct b as [|y b].
    + cbn [app] in E. subst d. specialize (Hd _ _ eq_refl). congruence.
    + cbn [app] in E. injection E as <- E. f_equal. apply IH; auto. now inversion Hb.
Qed.
Lemma int_chars t : LexForm INT t -> Forall (fun c => is_id_char c = true) t.
Proof.
  intros (s & u & -> & Hs & [Hu _]). apply Forall_app. split.
  - destruct Hs as [->|[->| ->]]; repeat constructor.
  - destruct Hu as [Hu|(d & -> & Hd)]; [eapply digits_chars; eauto using digit_id|].
    apply Forall_app. split; [repeat constructor|eapply digits_chars; eauto using hex_id].
Qed.

From Verif Require Import TokForm.
Lemma int_rej_float t r : TokenForm FLOAT t -> Stop r -> Rejects int_l (t ++ r).
Proof.
  intros [Hf [Hni _]] Hr. destruct (int_l (t ++ r)) as [c r'|c r'] eqn:E; [exfalso|now exists c, r'].
  pose proof (int_l_split (t ++ r)) as Hsp. rewrite E in Hsp.
  assert (Hc : LexForm INT c).
  { unfold int_l in E. apply l_seq_ok in E as (c1 & r1 & c2 & E1 & E2 & ->).
    apply l_seq_ok in E2 as (c3 & r3 & c4 & E3 & E4 & ->).
    unfold not_id_next in E4. apply l_peek_ok in E4 as ->. rewrite app_nil_r.
    exists c1, c3. split; [reflexivity|]. split.
    - apply l_opt_ok in E1 as [->|(r9 & E1)]; [now left|]. apply l_one_ok in E1 as (x & -> & Hx).
      unfold is_sign in Hx. apply orb_prop in Hx as [Hx|Hx]; apply N.eqb_eq in Hx as ->; [right; now left|right; now right].
    - now apply (uint_form _ _ _ E3). }
  assert (Hs' : Stop r').
  { unfold int_l in E. apply l_seq_ok in E as (c1 & r1 & c2 & E1 & E2 & ->).
    apply l_seq_ok in E2 as (c3 & r3 & c4 & E3 & E4 & ->). unfold not_id_next, l_peek in E4.
    destruct (l_one _ r3) eqn:E5; [|discriminate]. injection E4 as <- <-.
    unfold l_one in E5. destruct r3 as [|y r3]; [discriminate|]. destruct (negb (is_id_char y)) eqn:E6; [|discriminate].
    intros ? ? E7. injection E7 as <- <-. now apply negb_true_iff. }
  assert (c = t).
  { eapply id_prefix_unique; [now apply int_chars|now apply float_chars|exact Hs'|exact Hr|congruence]. }
  subst c. contradiction.
Qed.

Lemma rejt_ok c k t r :
  is_trivia_kind k = false -> TokenForm k t -> Follows k r -> rejt c (sym1 (k, t)) = true ->
  Rejects (clex c) (t ++ r).
Proof.
  intros Hk Hf Hr H. unfold rejt in H. apply orb_prop in H as [H|H].
  - apply clex_rej_start. intros x y E. destruct (first_char_in k t Hk Hf) as (x' & t' & -> & Hi).
    injection E as -> _. rewrite forallb_forall in H. specialize (H x Hi). now apply negb_true_iff.
  - destruct (sym1 (k, t)) eqn:Es; try (destruct c; discriminate H).
    + apply sym_flo in Es as ->; [|exact Hk]. destruct c; try discriminate H. cbn [clex].
      apply int_rej_float; [exact Hf|exact Hr].
    + apply sym_name in Es as ->; [|exact Hk]. pose proof Hf as [Hw [Hn Hp]].
      assert (P : forall p, In p ["inf"; "nan"; "offset="; "align="]%string -> starts_with (T p) t = false).
      { intros p Hi. destruct (starts_with (T p) t) eqn:E; [|reflexivity]. apply starts_prefix in E.
        destruct (Hp p Hi E). }
      destruct c; try discriminate H; cbn [clex].
      * apply word_verify_rej; [exact Hw|exact Hr|]. apply in_reserved in H.
        destruct (text_eqb_spec (T s) t) as [<-|]; [contradiction|reflexivity].
      * apply word_verify_rej; [exact Hw|exact Hr|]. unfold words.
        destruct (existsb (text_eqb t) (map T (kwords k))) eqn:E; [|reflexivity]. exfalso. apply Hn.
        apply existsb_exists in E as (x & Hx & E). apply text_eqb_eq in E as ->.
        apply in_map_iff in Hx as (w & <- & Hx). rewrite forallb_forall in H. now apply in_reserved, H.
      * apply float_rej_word; [now apply wordform_alpha|exact Hr|apply P|apply P]; cbn; auto.
      * apply mem_rej_word; [exact Hr|apply P|apply P]; cbn; auto.
    + apply sym_sw in Es as [-> Hw]; [|exact Hk|exact Hf].
      destruct (word_kind_form k t Hw Hf) as [Hi Hwf]. apply word_kind_follows in Hr; [|exact Hw].
      destruct c; try discriminate H; cbn [clex].
      * apply word_verify_rej; auto. now apply negb_true_iff.
      * apply word_verify_rej; auto. now apply negb_true_iff.
      * apply andb_prop in H as [H1 H2]. apply negb_true_iff in H1, H2.
        apply float_rej_word; auto using wordform_alpha.
      * apply andb_prop in H as [H1 H2]. apply negb_true_iff in H1, H2. now apply mem_rej_word.
Qed.
Lemma clex_rej_nil c : Rejects (clex c) [].
Proof. apply clex_rej_start. discriminate. Qed.
