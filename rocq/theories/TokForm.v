(** Lexical forms of tokens. *)

From Coq Require Import String List NArith Bool Arith Lia.
From Verif Require Import Text Kind Green SpecParser Lexer LexerFacts Winnow Grammar Sem Lossless Total Lang.
Import ListNotations.

Lemma l_lit_ok s t c r : l_lit s t = LOk c r -> c = s.
Proof. unfold l_lit. destruct (strip_prefix s t); congruence. Qed.
Lemma l_one_ok p t c r : l_one p t = LOk c r -> exists x, c = [x] /\ p x = true.
Proof.
  unfold l_one. destruct t as [|x t]; [congruence|]. destruct (p x) eqn:E; [|congruence].
  intros H. injection H as <- <-. eauto.
Qed.
Lemma l_while_ok p t c r : l_while p t = LOk c r -> Forall (fun x => p x = true) c.
Proof.
  unfold l_while. pose proof (span_all p t). destruct (span p t). intros H1. injection H1 as <- <-. exact H.
Qed.
Lemma l_while1_ok p t c r : l_while1 p t = LOk c r -> c <> [] /\ Forall (fun x => p x = true) c.
Proof.
  unfold l_while1. pose proof (span_all p t). destruct (span p t) as [[|x a] b]; [congruence|].
  intros H1. injection H1 as <- <-. split; [congruence|exact H].
Qed.
Lemma l_opt_ok a t c r : l_opt a t = LOk c r -> c = [] \/ exists r', a t = LOk c r'.
Proof.
  unfold l_opt. destruct (a t) as [c1 r1|]; intros H; injection H as <- <-; eauto.
Qed.
Lemma l_alt_ok a b t c r : l_alt a b t = LOk c r -> a t = LOk c r \/ b t = LOk c r.
Proof. unfold l_alt. destruct (a t) as [c1 r1|]; intros H; auto. Qed.
Lemma l_peek_ok a t c r : l_peek a t = LOk c r -> c = [].
Proof. unfold l_peek. destruct (a t); congruence. Qed.

Definition lexes (l : lex) (P : text -> Prop) : Prop := forall t c r, l t = LOk c r -> P c.

Lemma digits_form p : lexes (l_one p +> l_while (fun c => p c || N.eqb c c_underscore)) (Digits p).
Proof.
  intros t c r H. apply l_seq_ok in H as (c1 & r1 & c2 & H1 & H2 & ->).
  apply l_one_ok in H1 as (x & -> & Hx). apply l_while_ok in H2.
  exists x, c2. split; [reflexivity|]. split; [exact Hx|].
  eapply Forall_impl; [|exact H2]. intros a Ha. apply orb_prop in Ha as [Ha|Ha]; [auto|].
  apply N.eqb_eq in Ha. auto.
Qed.
Lemma hex_form : lexes unsigned_hex (Digits is_ascii_hexdigit).
Proof. apply digits_form. Qed.
Lemma dec_form : lexes unsigned_dec (Digits is_ascii_digit).
Proof. apply digits_form. Qed.

Lemma ends_with_char_spec x t : ends_with_char x t = true <-> exists r, t = r ++ [x].
Proof.
  induction t as [|a t IH]; [split; [discriminate|intros ([|? ?] & H); discriminate]|].
  destruct t as [|b t].
  - cbn. rewrite N.eqb_eq. split; [intros ->; now exists []|].
    intros ([|y [|z l]] & H); cbn in H; congruence.
  - change (ends_with_char x (a :: b :: t)) with (ends_with_char x (b :: t)). rewrite IH. split.
    + intros (r & ->). now exists (a :: r).
    + intros ([|y l] & H); cbn in H; [congruence|]. injection H as <- H. eauto.
Qed.

Lemma uint_form : lexes unsigned_int_l UIntForm.
Proof.
  intros t c r H. unfold unsigned_int_l in H. apply l_verify_ok in H as [H Hv].
  split.
  - destruct (strip_prefix (T "0x") t) as [t1|].
    + right. apply lprefix_ok in H as (c' & H & ->). exists c'. split; [reflexivity|].
      eapply hex_form; eauto.
    + left. eapply dec_form; eauto.
  - intros r' ->. rewrite (proj2 (ends_with_char_spec _ _)) in Hv; [discriminate|eauto].
Qed.

Lemma sign_form : lexes (l_opt (l_one is_sign)) SignForm.
Proof.
  intros t c r H. apply l_opt_ok in H as [->|(r' & H)]; [now left|].
  apply l_one_ok in H as (x & -> & Hx). right. unfold is_sign in Hx.
  apply orb_prop in Hx as [Hx|Hx]; apply N.eqb_eq in Hx; subst; auto.
Qed.

Lemma seq_form a b (P Q : text -> Prop) : lexes a P -> lexes b Q -> lexes (a +> b) (Cat P Q).
Proof.
  intros Ha Hb t c r H. apply l_seq_ok in H as (c1 & r1 & c2 & H1 & H2 & ->).
  exists c1, c2. split; [reflexivity|]. split; [eapply Ha|eapply Hb]; eauto.
Qed.
Lemma opt_form a (P : text -> Prop) : lexes a P -> lexes (l_opt a) (Opt P).
Proof. intros Ha t c r H. apply l_opt_ok in H as [->|(r' & H)]; [now left|right; eapply Ha; eauto]. Qed.
Lemma lit_form s : lexes (l_lit s) (eq s).
Proof. intros t c r H. apply l_lit_ok in H. congruence. Qed.
Lemma peek_form a : lexes (l_peek a) (eq []).
Proof. intros t c r H. apply l_peek_ok in H. congruence. Qed.
Lemma one_form l : lexes (l_one (char_in l)) (fun e => exists x, e = [x] /\ In x l).
Proof.
  intros t c r H. apply l_one_ok in H as (x & -> & Hx). exists x. split; [reflexivity|].
  unfold char_in in Hx. apply existsb_exists in Hx as (y & Hy & Hxy). apply N.eqb_eq in Hxy. now subst.
Qed.
Lemma lexes_impl l (P Q : text -> Prop) : (forall t, P t -> Q t) -> lexes l P -> lexes l Q.
Proof. intros H Hl t c r E. eapply H, Hl; eauto. Qed.
Lemma alt_form a b (P Q : text -> Prop) : lexes a P -> lexes b Q -> lexes (l_alt a b) (fun t => P t \/ Q t).
Proof. intros Ha Hb t c r H. apply l_alt_ok in H as [H|H]; [left; eapply Ha|right; eapply Hb]; eauto. Qed.
Lemma Cat_assoc P Q R t : Cat (Cat P Q) R t -> Cat P (Cat Q R) t.
Proof.
  intros (x & c & -> & (a & b & -> & Ha & Hb) & Hc). exists a, (b ++ c).
  rewrite app_assoc. split; [reflexivity|]. split; [exact Ha|]. exists b, c. auto.
Qed.
Lemma Cat_impl (P P' Q Q' : text -> Prop) t :
  (forall t, P t -> P' t) -> (forall t, Q t -> Q' t) -> Cat P Q t -> Cat P' Q' t.
Proof. intros H1 H2 (a & b & -> & Ha & Hb). exists a, b. auto. Qed.

Lemma int_form : lexes int_l (Cat SignForm UIntForm).
Proof.
  eapply lexes_impl; [|apply seq_form; [apply sign_form|apply seq_form; [apply uint_form|apply peek_form]]].
  intros t. apply Cat_impl; [auto|]. intros u (a & b & -> & Ha & <-). now rewrite app_nil_r.
Qed.

Lemma float_form : lexes float_l FloatForm.
Proof.
  intros t c r H. unfold float_l in H. apply l_verify_ok in H as [H _]. revert t c r H.
  change (lexes (l_opt (l_one is_sign) +>
    l_alt
          (l_lit (T "0x")
           +> (unsigned_hex +> l_opt (l_lit [c_dot] +> l_opt unsigned_hex))
           +> l_opt (l_one (char_in (T "pP")) +> l_opt (l_one is_sign) +> unsigned_dec))
          (l_alt
             ((unsigned_dec +> l_opt (l_lit [c_dot] +> l_opt unsigned_dec))
              +> l_opt (l_one (char_in (T "eE")) +> l_opt (l_one is_sign) +> unsigned_dec))
             (l_alt (l_lit (T "inf"))
                    (l_lit (T "nan") +> l_opt (l_lit (T ":0x") +> unsigned_hex))))
     +> not_id_next) FloatForm).
  unfold FloatForm. apply seq_form; [apply sign_form|].
  eapply lexes_impl; [intros t H; exact H|].
  intros t c r H. apply l_seq_ok in H as (c1 & r1 & c2 & H1 & H2 & ->).
  apply l_peek_ok in H2 as ->. rewrite app_nil_r.
  assert (Hexp : forall (l : list char) (Q : text -> Prop), (forall x, In x l -> Q [x]) ->
    lexes (l_opt (l_one (char_in l) +> l_opt (l_one is_sign) +> unsigned_dec))
          (Opt (Cat Q (Cat SignForm (Digits is_ascii_digit))))).
  { intros l Q HQ. apply opt_form, seq_form; [|apply seq_form; [apply sign_form|apply dec_form]].
    eapply lexes_impl; [|apply one_form]. intros u (x & -> & Hx). auto. }
  apply l_alt_ok in H1 as [H1|H1].
  - left. revert H1. revert t c1 r1. match goal with |- forall t c1 r1, ?l t = LOk c1 r1 -> @?P c1 => change (lexes l P) end. apply seq_form; [apply lit_form|].
    eapply lexes_impl; [intros u; apply Cat_assoc|]. apply seq_form.
    + apply seq_form; [apply hex_form|]. apply opt_form, seq_form; [apply lit_form|].
      apply opt_form, hex_form.
    + apply Hexp. intros x [<-|[<-|[]]]; auto.
  - right. apply l_alt_ok in H1 as [H1|H1].
    + left. revert H1. revert t c1 r1. match goal with |- forall t c1 r1, ?l t = LOk c1 r1 -> @?P c1 => change (lexes l P) end. eapply lexes_impl; [intros u; apply Cat_assoc|]. apply seq_form.
      * apply seq_form; [apply dec_form|]. apply opt_form, seq_form; [apply lit_form|].
        apply opt_form, dec_form.
      * apply Hexp. intros x [<-|[<-|[]]]; auto.
    + right. apply l_alt_ok in H1 as [H1|H1].
      * left. apply l_lit_ok in H1. exact H1.
      * right. apply l_seq_ok in H1 as (a & t1 & b & Ha & Hb & ->).
        apply l_lit_ok in Ha as ->. apply l_opt_ok in Hb as [->|(r' & Hb)]; [left; reflexivity|right].
        apply l_seq_ok in Hb as (a' & t2 & b' & Ha' & Hb' & ->). apply l_lit_ok in Ha' as ->.
        exists (T "nan:0x"), b'. split; [reflexivity|]. split; [reflexivity|]. eapply hex_form; eauto.
Qed.

Lemma mem_arg_form : lexes mem_arg_l (LexForm MEM_ARG).
Proof.
  intros t c r H. unfold mem_arg_l in H. apply l_seq_ok in H as (a & t1 & b & Ha & Hb & ->).
  apply l_seq_ok in Hb as (e & t2 & n & He & Hn & ->). apply l_lit_ok in He as ->.
  exists n. split; [|eapply uint_form; eauto].
  apply l_alt_ok in Ha as [Ha|Ha]; apply l_lit_ok in Ha as ->; [left|right]; reflexivity.
Qed.

Lemma word_form : lexes word WordForm.
Proof.
  intros t c r H. apply l_seq_ok in H as (c1 & r1 & c2 & H1 & H2 & ->).
  apply l_one_ok in H1 as (x & -> & Hx). apply l_while_ok in H2. exists x, c2. auto.
Qed.
Lemma word_eq_form s : lexes (l_verify word (text_eqb (T s))) (eq (T s)).
Proof. intros t c r H. apply l_verify_ok in H as [_ H]. now apply text_eqb_eq in H. Qed.
Lemma words_form l : lexes (l_verify word (words l)) (OneOf l).
Proof.
  intros t c r H. apply l_verify_ok in H as [_ H]. unfold words in H.
  apply existsb_exists in H as (x & Hx & He). apply text_eqb_eq in He. subst. exact Hx.
Qed.
Lemma ident_form : lexes ident_l (LexForm IDENT).
Proof.
  intros t c r H. apply l_seq_ok in H as (c1 & r1 & c2 & H1 & H2 & ->).
  apply l_lit_ok in H1 as ->. apply l_while1_ok in H2 as [? ?]. exists c2. auto.
Qed.
Lemma string_form : lexes string_l (LexForm STRING).
Proof.
  intros t c r H. unfold string_l in H. apply l_seq_ok in H as (c1 & r1 & c2 & H1 & H2 & ->).
  apply l_lit_ok in H1 as ->. apply l_seq_ok in H2 as (b & r2 & e & H1 & H2 & ->).
  pose proof (str_scan_pre r1 SNorm [] SB_nil) as Hs. rewrite H1 in Hs. exists b. split; [apply Hs|].
  apply l_alt_ok in H2 as [H2|H2]; [apply l_lit_ok in H2 as ->; left; reflexivity|right].
  assert (e = []) as ->; [|now rewrite app_nil_r].
  apply l_alt_ok in H2 as [H2|H2]; [now apply l_peek_ok in H2|].
  unfold l_eof in H2. destruct r2; congruence.
Qed.

(** Every token parser of the grammar yields tokens of the right form. *)
Fixpoint toks (P : kind -> text -> Prop) (g : grammar) : Prop :=
  match g with
  | GTok k l => lexes l (P k)
  | GSeq a b | GAlt a b | GTill a b | GIf _ _ a b => toks P a /\ toks P b
  | GOpt a | GRep a | GRep1 a | GNode _ a | GCtx _ a | GRetry a _ | GRetryOnce a _
  | GMust a => toks P a
  | GTriv | GEmpty | GFail | GRParen | GInstr => True
  end.

(** [LexForm] without ERROR. *)
Definition GoodTok (k : kind) (t : text) : Prop := k <> ERROR /\ LexForm k t.

Lemma lparen_good : lexes (l_lit (T "(")) (GoodTok L_PAREN).
Proof. intros t c r H. apply l_lit_ok in H as ->. split; [discriminate|reflexivity]. Qed.
Lemma kw_good s : In s keywords -> lexes (l_verify word (text_eqb (T s))) (GoodTok KEYWORD).
Proof.
  intros Hs t c r H. apply word_eq_form in H as <-. split; [discriminate|]. now apply in_map.
Qed.

Ltac solve_toks :=
  repeat match goal with
  | |- True => exact I
  | |- _ /\ _ => split
  | |- toks _ (if ?b then _ else _) => destruct b
  | |- lexes ?l _ => solve
     [ eapply lexes_impl; [intros ? ?; split; [discriminate|eassumption]|];
       first [ apply uint_form | apply int_form | apply float_form | apply mem_arg_form
             | apply word_form | apply words_form | apply ident_form | apply string_form ]
     | apply lparen_good
     | apply kw_good; cbn; repeat (first [left; reflexivity | right]) ]
  end.

Lemma instr_body_toks : toks GoodTok instr_body.
Proof. cbn -[LexForm GoodTok T]; solve_toks. Qed.
Lemma module_toks : toks GoodTok module.
Proof. cbn -[LexForm GoodTok T]; solve_toks. Qed.
