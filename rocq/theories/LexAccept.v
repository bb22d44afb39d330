(** Which texts the token parsers accept and reject. *)

From Coq Require Import String List NArith Bool Arith Lia.
From Verif Require Import Text Kind Green SpecParser Lexer LexerFacts SpecComplete.
Import ListNotations.

Notation TOpt := SpecParser.Opt.
Definition Stop (r : text) : Prop := forall c x, r = c :: x -> is_id_char c = false.
Definition Rejects (l : lex) (t : text) : Prop := exists c r, l t = LErr c r.

(** ** Characters *)
Lemma digit_id c : is_ascii_digit c = true -> is_id_char c = true.
Proof. intros H. unfold is_id_char, is_ascii_alphanumeric. rewrite H, !orb_true_r. reflexivity. Qed.
Lemma lower_id c : is_ascii_lowercase c = true -> is_id_char c = true.
Proof. intros H. unfold is_id_char, is_ascii_alphanumeric. rewrite H. reflexivity. Qed.
Lemma hex_id c : is_ascii_hexdigit c = true -> is_id_char c = true.
Proof.
  unfold is_ascii_hexdigit, is_id_char, is_ascii_alphanumeric, is_ascii_lowercase, is_ascii_uppercase.
  destruct (is_ascii_digit c); [now rewrite !orb_true_r|]. cbn [orb]. rewrite orb_false_r.
  unfold in_range. intros H.
  replace ((97 <=? c)%N && (c <=? 122)%N || (65 <=? c)%N && (c <=? 90)%N) with true; [reflexivity|].
  symmetry. rewrite orb_true_iff, !andb_true_iff, !N.leb_le in *. lia.
Qed.
Lemma digit_hex c : is_ascii_digit c = true -> is_ascii_hexdigit c = true.
Proof. intros H. unfold is_ascii_hexdigit. now rewrite H. Qed.
Lemma underscore_id : is_id_char c_underscore = true.
Proof. reflexivity. Qed.

(** ** Pieces *)
Lemma span_exact p a r :
  Forall (fun c => p c = true) a -> (forall c x, r = c :: x -> p c = false) -> span p (a ++ r) = (a, r).
Proof.
  intros Ha Hr. induction Ha as [|c a Hc _ IH]; cbn [app].
  - destruct r as [|c x]; [reflexivity|]. cbn [span]. now rewrite (Hr c x eq_refl).
  - cbn [span]. now rewrite Hc, IH.
Qed.
Lemma l_while_exact p a r :
  Forall (fun c => p c = true) a -> (forall c x, r = c :: x -> p c = false) ->
  l_while p (a ++ r) = LOk a r.
Proof. intros Ha Hr. unfold l_while. now rewrite span_exact. Qed.
Lemma l_lit_exact s r : l_lit s (s ++ r) = LOk s r.
Proof.
  unfold l_lit. assert (E : strip_prefix s (s ++ r) = Some r) by now apply strip_prefix_spec.
  now rewrite E.
Qed.
Lemma l_seq_exact a b x y r : a (x ++ y ++ r) = LOk x (y ++ r) -> b (y ++ r) = LOk y r ->
  (a +> b) ((x ++ y) ++ r) = LOk (x ++ y) r.
Proof. intros Ha Hb. unfold l_seq. rewrite <- app_assoc, Ha, Hb. reflexivity. Qed.
Lemma l_seq_rej a b t : Rejects a t -> Rejects (a +> b) t.
Proof. intros (c & r & E). exists c, r. unfold l_seq. now rewrite E. Qed.
Lemma l_seq_rej2 a b x r : a (x ++ r) = LOk x r -> Rejects b r -> Rejects (a +> b) (x ++ r).
Proof. intros E (c & r2 & E2). exists (x ++ c), r2. unfold l_seq. now rewrite E, E2. Qed.

Lemma word_exact t r : WordForm t -> Stop r -> word (t ++ r) = LOk t r.
Proof.
  intros (c & t' & -> & Hc & Ht) Hr. unfold word. apply (l_seq_exact (l_one is_ascii_lowercase) _ [c] t').
  - cbn [app l_one]. now rewrite Hc.
  - now apply l_while_exact.
Qed.
Lemma word_rej t : (forall c x, t = c :: x -> is_ascii_lowercase c = false) -> Rejects word t.
Proof.
  intros H. apply l_seq_rej. destruct t as [|c x]; [now exists [], []|].
  exists [], (c :: x). cbn [l_one]. now rewrite (H c x eq_refl).
Qed.
Lemma ident_exact t r : LexForm IDENT t -> Stop r -> ident_l (t ++ r) = LOk t r.
Proof.
  intros (t' & -> & Hn & Ht) Hr. unfold ident_l. apply (l_seq_exact (l_lit [c_dollar]) _ [c_dollar] t').
  - apply l_lit_exact.
  - unfold l_while1. rewrite span_exact by assumption. destruct t'; [congruence|reflexivity].
Qed.
Lemma lit1_rej x t : (forall c y, t = c :: y -> c <> x) -> Rejects (l_lit [x]) t.
Proof.
  intros H. exists [], t. unfold l_lit. cbn [strip_prefix]. destruct t as [|c y]; [reflexivity|].
  destruct (N.eqb_spec x c) as [E|E]; [|reflexivity]. destruct (H c y eq_refl). congruence.
Qed.

(** ** Strings *)
Lemma str_scan_hex h t c r :
  Forall (fun c => is_ascii_hexdigit c = true) h -> str_scan SHex t = LOk c r ->
  str_scan SHex (h ++ t) = LOk (h ++ c) r.
Proof.
  intros H E. induction H as [|x h Hx _ IH]; [exact E|]. cbn [app str_scan]. rewrite Hx, IH. reflexivity.
Qed.
Lemma str_scan_body b t c r :
  StrBody b -> str_scan SNorm t = LOk c r -> str_scan SNorm (b ++ t) = LOk (b ++ c) r.
Proof.
  intros Hb. revert t c. induction Hb as [|p x _ IH H1 H2 H3 H4|p x _ IH H1|p h _ IH H]; intros t c E.
  - exact E.
  - rewrite <- !app_assoc. apply IH. cbn [app str_scan].
    apply N.eqb_neq in H1, H2, H3, H4. rewrite H1, H2, H3, H4, E. reflexivity.
  - rewrite <- !app_assoc. apply IH. cbn [app str_scan]. rewrite N.eqb_refl.
    apply N.eqb_neq in H1. rewrite H1, E. reflexivity.
  - rewrite <- !app_assoc. apply IH. cbn [app str_scan]. rewrite !N.eqb_refl.
    rewrite (str_scan_hex h _ (c_rbrace :: c) r H).
    + cbn [lprefix app]. reflexivity.
    + cbn [app str_scan]. change (is_ascii_hexdigit c_rbrace) with false. cbn iota.
      rewrite N.eqb_refl, E. reflexivity.
Qed.
Lemma string_exact b r :
  StrBody b -> string_l (([c_quote] ++ b ++ [c_quote]) ++ r) = LOk ([c_quote] ++ b ++ [c_quote]) r.
Proof.
  intros Hb. unfold string_l. apply l_seq_exact; [apply l_lit_exact|].
  apply (l_seq_exact (str_scan SNorm) _ b [c_quote]).
  - rewrite (str_scan_body b _ [] ([c_quote] ++ r) Hb); [now rewrite app_nil_r|reflexivity].
  - unfold l_alt. now rewrite l_lit_exact.
Qed.

(** ** Numbers *)
Lemma digits_exact p t r :
  Digits p t -> (forall c, p c = true -> is_id_char c = true) -> Stop r ->
  (l_one p +> l_while (fun c => p c || N.eqb c c_underscore)) (t ++ r) = LOk t r.
Proof.
  intros (d & t' & -> & Hd & Ht) Hp Hr. apply (l_seq_exact (l_one p) _ [d] t').
  - cbn [app l_one]. now rewrite Hd.
  - apply l_while_exact.
    + eapply Forall_impl; [|exact Ht]. intros a [Ha| ->]; [now rewrite Ha|]. rewrite N.eqb_refl. apply orb_true_r.
    + intros c x E. specialize (Hr c x E). destruct (p c) eqn:E1; [rewrite (Hp c E1) in Hr; discriminate|].
      cbn [orb]. destruct (N.eqb_spec c c_underscore) as [->|]; [discriminate Hr|reflexivity].
Qed.
(** The same in front of any text that does not go on with a digit. *)
Lemma digits_exact' p t r :
  Digits p t -> (forall c x, r = c :: x -> p c = false /\ c <> c_underscore) ->
  (l_one p +> l_while (fun c => p c || N.eqb c c_underscore)) (t ++ r) = LOk t r.
Proof.
  intros (d & t' & -> & Hd & Ht) Hr. apply (l_seq_exact (l_one p) _ [d] t').
  - cbn [app l_one]. now rewrite Hd.
  - apply l_while_exact.
    + eapply Forall_impl; [|exact Ht]. intros a [Ha| ->]; [now rewrite Ha|]. rewrite N.eqb_refl. apply orb_true_r.
    + intros c x E. specialize (Hr c x E) as [-> Hn]. apply N.eqb_neq in Hn. now rewrite Hn.
Qed.
Lemma ends_underscore t : (forall r, t <> r ++ [c_underscore]) -> ends_with_char c_underscore t = false.
Proof.
  intros H. destruct (ends_with_char c_underscore t) eqn:E; [|reflexivity]. exfalso.
  assert (G : exists r, t = r ++ [c_underscore]); [|destruct G as (r & ->); now apply (H r)].
  clear H. induction t as [|a t IH]; [discriminate|]. destruct t as [|b t].
  - cbn in E. apply N.eqb_eq in E as ->. now exists [].
  - destruct IH as (r & E2); [exact E|]. exists (a :: r). cbn [app]. now rewrite <- E2.
Qed.
Lemma digits_no_0x t r : Digits is_ascii_digit t -> Stop r -> strip_prefix (T "0x") (t ++ r) = None.
Proof.
  intros (d & t' & -> & Hd & Ht) Hr. change (T "0x") with [48%N; 120%N]. cbn [app strip_prefix].
  destruct (N.eqb 48 d); [|reflexivity]. destruct t' as [|x t'].
  - destruct r as [|c x]; [reflexivity|]. cbn [app]. destruct (N.eqb_spec 120 c) as [<-|]; [|reflexivity].
    specialize (Hr _ _ eq_refl). discriminate Hr.
  - cbn [app]. apply Forall_inv in Ht. destruct (N.eqb_spec 120 x) as [<-|]; [|reflexivity].
    destruct Ht as [Ht|Ht]; discriminate Ht.
Qed.
Lemma uint_exact t r : UIntForm t -> Stop r -> unsigned_int_l (t ++ r) = LOk t r.
Proof.
  intros [Hf Hu] Hr. unfold unsigned_int_l, l_verify. apply ends_underscore in Hu.
  destruct Hf as [Hd|(d & -> & Hd)].
  - rewrite digits_no_0x by assumption. unfold unsigned_dec.
    rewrite digits_exact by auto using digit_id. now rewrite Hu.
  - rewrite <- app_assoc.
    assert (E : strip_prefix (T "0x") (T "0x" ++ d ++ r) = Some (d ++ r)) by now apply strip_prefix_spec.
    rewrite E. unfold unsigned_hex. rewrite digits_exact by auto using hex_id. cbn [lprefix].
    now rewrite Hu.
Qed.
Lemma not_id_exact r : Stop r -> r <> [] -> not_id_next r = LOk [] r.
Proof.
  intros Hr Hn. destruct r as [|c x]; [congruence|]. unfold not_id_next, l_peek, l_one.
  now rewrite (Hr c x eq_refl).
Qed.
Definition plain_start (t : text) : Prop := forall c x, t = c :: x -> is_sign c = false.
Lemma sign_exact s t : SignForm s -> plain_start t -> l_opt (l_one is_sign) (s ++ t) = LOk s t.
Proof.
  intros [->|[->| ->]] Ht; [|reflexivity|reflexivity]. unfold l_opt, l_one. cbn [app].
  destruct t as [|c x]; [reflexivity|]. now rewrite (Ht c x eq_refl).
Qed.
Lemma digit_not_sign c : is_ascii_digit c = true -> is_sign c = false.
Proof.
  unfold is_ascii_digit, in_range, is_sign. rewrite andb_true_iff, !N.leb_le. intros [H1 H2].
  destruct (N.eqb_spec c c_plus) as [->|]; [exfalso; revert H1; unfold c_plus; lia|].
  destruct (N.eqb_spec c c_minus) as [->|]; [exfalso; revert H1; unfold c_minus; lia|]. reflexivity.
Qed.
Lemma hex_not_sign c : is_ascii_hexdigit c = true -> is_sign c = false.
Proof.
  unfold is_ascii_hexdigit, is_ascii_digit, in_range, is_sign.
  rewrite !orb_true_iff, !andb_true_iff, !N.leb_le. intros H.
  destruct (N.eqb_spec c c_plus) as [->|]; [exfalso; revert H; unfold c_plus; lia|].
  destruct (N.eqb_spec c c_minus) as [->|]; [exfalso; revert H; unfold c_minus; lia|]. reflexivity.
Qed.
Lemma uint_first t : UIntForm t -> exists d t', t = d :: t' /\ is_ascii_digit d = true.
Proof.
  intros [[(d & t' & -> & Hd & _)|(d & -> & _)] _]; [eauto|]. exists 48%N, (120%N :: d). auto.
Qed.
Lemma int_exact t r : LexForm INT t -> Stop r -> r <> [] -> int_l (t ++ r) = LOk t r.
Proof.
  intros (s & u & -> & Hs & Hu) Hr Hn. unfold int_l. apply l_seq_exact.
  - apply sign_exact; [exact Hs|]. intros c x E. apply uint_first in Hu as (d & t' & -> & Hd).
    injection E as <- <-. now apply digit_not_sign.
  - rewrite <- (app_nil_r u) at 1 2. apply (l_seq_exact unsigned_int_l not_id_next u []).
    + now apply uint_exact.
    + now apply not_id_exact.
Qed.
Lemma mem_arg_exact t r : LexForm MEM_ARG t -> Stop r -> mem_arg_l (t ++ r) = LOk t r.
Proof.
  intros (n & Ht & Hn) Hr. unfold mem_arg_l.
  assert (K : forall w, (w = T "offset" \/ w = T "align") -> forall x,
     l_alt (l_lit (T "offset")) (l_lit (T "align")) (w ++ x) = LOk w x).
  { intros w [->| ->] x; unfold l_alt; [now rewrite l_lit_exact|].
    assert (E : l_lit (T "offset") (T "align" ++ x) = LErr [] (T "align" ++ x)) by reflexivity.
    now rewrite E, l_lit_exact. }
  assert (E : exists w, (w = T "offset" \/ w = T "align") /\ t = w ++ [c_eq] ++ n).
  { destruct Ht as [->| ->]; [exists (T "offset")|exists (T "align")]; split; auto. }
  destruct E as (w & Hw & ->). apply l_seq_exact; [now apply K|].
  apply l_seq_exact; [apply l_lit_exact|now apply uint_exact].
Qed.

(** ** Floats *)
Definition after_digits (r : text) : Prop :=
  forall c x, r = c :: x -> is_ascii_hexdigit c = false /\ is_ascii_digit c = false /\ c <> c_underscore.
Lemma stop_after r : Stop r -> after_digits r.
Proof.
  intros H c x E. specialize (H c x E). repeat split.
  - destruct (is_ascii_hexdigit c) eqn:E1; [|reflexivity]. apply hex_id in E1. congruence.
  - destruct (is_ascii_digit c) eqn:E1; [|reflexivity]. apply digit_id in E1. congruence.
  - intros ->. discriminate H.
Qed.
Lemma one_exact p c r : p c = true -> l_one p ([c] ++ r) = LOk [c] r.
Proof. intros H. cbn [app l_one]. now rewrite H. Qed.
Lemma opt_exact a (P : text -> Prop) t r :
  TOpt P t -> (P t -> a (t ++ r) = LOk t r) -> (t = [] -> Rejects a r) -> l_opt a (t ++ r) = LOk t r.
Proof.
  intros [->|H] H1 H2; unfold l_opt.
  - destruct (H2 eq_refl) as (c & r' & E). cbn [app]. now rewrite E.
  - now rewrite (H1 H).
Qed.
Lemma opt_exp_exact e1 e2 p t r :
  p = char_in [e1; e2] ->
  TOpt (Cat (fun e => e = [e1] \/ e = [e2]) (Cat SignForm (Digits is_ascii_digit))) t ->
  Stop r -> is_id_char e1 = true -> is_id_char e2 = true ->
  l_opt (l_one p +> l_opt (l_one is_sign) +> unsigned_dec) (t ++ r) = LOk t r.
Proof.
  intros -> Ht Hr I1 I2. eapply opt_exact; [exact Ht| |].
  - intros (e & x & -> & He & (s & d & -> & Hs & Hd)).
    assert (Ee : exists c, e = [c] /\ char_in [e1; e2] c = true).
    { destruct He as [->| ->]; [exists e1|exists e2]; split; auto; cbn [char_in existsb]; rewrite N.eqb_refl; auto.
      now rewrite orb_true_r. }
    destruct Ee as (c & -> & Ec). apply l_seq_exact; [now apply one_exact|]. apply l_seq_exact.
    + apply sign_exact; [exact Hs|]. destruct Hd as (y & d' & -> & Hy & _). intros ? ? E. injection E as <- <-.
      now apply digit_not_sign.
    + apply digits_exact; auto using digit_id.
  - intros _. apply l_seq_rej. destruct r as [|c x]; [now exists [], []|]. exists [], (c :: x). cbn [l_one].
    specialize (Hr c x eq_refl). cbn [char_in existsb].
    destruct (N.eqb_spec c e1) as [->|_]; [congruence|]. destruct (N.eqb_spec c e2) as [->|_]; [congruence|].
    reflexivity.
Qed.
Lemma exp_start e1 e2 t r c x :
  TOpt (Cat (fun e => e = [e1] \/ e = [e2]) (Cat SignForm (Digits is_ascii_digit))) t -> t ++ r = c :: x ->
  c = e1 \/ c = e2 \/ r = c :: x.
Proof.
  intros [->|(e & y & -> & He & _)] E; [auto|]. destruct He as [->| ->]; injection E as <- _; auto.
Qed.
Lemma opt_frac_exact p t r :
  TOpt (Cat (eq [c_dot]) (TOpt (Digits p))) t ->
  (forall c x, r = c :: x -> c <> c_dot /\ p c = false /\ c <> c_underscore) ->
  l_opt (l_lit [c_dot] +> l_opt (l_one p +> l_while (fun c => p c || N.eqb c c_underscore))) (t ++ r) = LOk t r.
Proof.
  intros Ht Hr. eapply opt_exact; [exact Ht| |].
  - intros (d & x & -> & <- & Hx). apply l_seq_exact; [apply l_lit_exact|]. eapply opt_exact; [exact Hx| |].
    + intros Hd. apply digits_exact'; [exact Hd|]. intros c y E. split; apply (Hr c y E).
    + intros ->. apply l_seq_rej. destruct r as [|c y]; [now exists [], []|]. exists [], (c :: y). cbn [l_one].
      specialize (Hr c y eq_refl) as (_ & -> & _). reflexivity.
  - intros _. apply l_seq_rej, lit1_rej. intros c y E. apply (Hr c y E).
Qed.
Lemma frac_start p t r c x :
  TOpt (Cat (eq [c_dot]) (TOpt (Digits p))) t -> t ++ r = c :: x -> c = c_dot \/ (t = [] /\ r = c :: x).
Proof. intros [->|(d & y & -> & <- & _)] E; [auto|]. injection E as <- _. auto. Qed.

Definition float_alts : lex :=
  l_alt
    (l_lit (T "0x")
     +> (unsigned_hex +> l_opt (l_lit [c_dot] +> l_opt unsigned_hex))
     +> l_opt (l_one (char_in (T "pP")) +> l_opt (l_one is_sign) +> unsigned_dec))
    (l_alt
       ((unsigned_dec +> l_opt (l_lit [c_dot] +> l_opt unsigned_dec))
        +> l_opt (l_one (char_in (T "eE")) +> l_opt (l_one is_sign) +> unsigned_dec))
       (l_alt (l_lit (T "inf"))
              (l_lit (T "nan") +> l_opt (l_lit (T ":0x") +> unsigned_hex)))).

Definition FloatBody (t : text) : Prop :=
       Cat (eq (T "0x")) (Cat (Digits is_ascii_hexdigit)
         (Cat (TOpt (Cat (eq [c_dot]) (TOpt (Digits is_ascii_hexdigit))))
              (TOpt (Cat (fun e => e = T "p" \/ e = T "P") (Cat SignForm (Digits is_ascii_digit)))))) t
    \/ Cat (Digits is_ascii_digit)
         (Cat (TOpt (Cat (eq [c_dot]) (TOpt (Digits is_ascii_digit))))
              (TOpt (Cat (fun e => e = T "e" \/ e = T "E") (Cat SignForm (Digits is_ascii_digit))))) t
    \/ t = T "inf"
    \/ t = T "nan"
    \/ Cat (eq (T "nan:0x")) (Digits is_ascii_hexdigit) t.

Lemma alt_first a b t c r : a t = LOk c r -> l_alt a b t = LOk c r.
Proof. intros E. unfold l_alt. now rewrite E. Qed.
Lemma alt_second a b t x : Rejects a t -> b t = x -> l_alt a b t = x.
Proof. intros (c & r & E) <-. unfold l_alt. now rewrite E. Qed.
Lemma l_seq_exact3 a b c x y z r :
  a (x ++ y ++ z ++ r) = LOk x (y ++ z ++ r) -> b (y ++ z ++ r) = LOk y (z ++ r) -> c (z ++ r) = LOk z r ->
  ((a +> b) +> c) ((x ++ y ++ z) ++ r) = LOk (x ++ y ++ z) r.
Proof.
  intros Ha Hb Hc. unfold l_seq. rewrite <- !app_assoc, Ha, Hb. cbn [lprefix]. rewrite Hc. cbn [lprefix].
  now rewrite <- app_assoc.
Qed.

Lemma dec_rej_alpha c x : is_ascii_lowercase c = true -> Rejects unsigned_dec (c :: x).
Proof.
  intros H. apply l_seq_rej. exists [], (c :: x). cbn [l_one].
  replace (is_ascii_digit c) with false; [reflexivity|]. symmetry. revert H.
  unfold is_ascii_lowercase, is_ascii_digit, in_range. rewrite andb_true_iff, andb_false_iff, !N.leb_le, !N.leb_gt. lia.
Qed.
Lemma lit_rej s t : strip_prefix s t = None -> Rejects (l_lit s) t.
Proof. intros E. exists [], t. unfold l_lit. now rewrite E. Qed.

Lemma float_body_exact t r : FloatBody t -> Stop r -> float_alts (t ++ r) = LOk t r.
Proof.
  intros H Hr. pose proof (stop_after r Hr) as Ha. unfold float_alts.
  destruct H as [(x0 & y & -> & <- & (h & z & -> & Hh & (f & e & -> & Hf & He)))|
                 [(d & z & -> & Hd & (f & e & -> & Hf & He))|[->|[->|(x0 & h & -> & <- & Hh)]]]].
  - apply alt_first. apply l_seq_exact; [apply l_lit_exact|].
    assert (Hc : forall c x, e ++ r = c :: x -> c <> c_dot /\ is_ascii_hexdigit c = false /\ c <> c_underscore).
    { intros c x E. destruct (exp_start 112%N 80%N e r c x He E) as [->|[->|E2]]; try (repeat split; easy).
      destruct (Ha c x E2) as (H1 & _ & H3). repeat split; auto. intros ->. specialize (Hr _ _ E2). discriminate Hr. }
    apply l_seq_exact3.
    + apply digits_exact'; [exact Hh|]. intros c x E.
      destruct (frac_start is_ascii_hexdigit f (e ++ r) c x Hf E) as [->|[_ E2]]; [split; easy|].
      destruct (Hc c x E2) as (_ & H2 & H3). auto.
    + apply opt_frac_exact; [exact Hf|exact Hc].
    + apply (opt_exp_exact 112%N 80%N); auto.
  - assert (Hc : forall c x, e ++ r = c :: x -> c <> c_dot /\ is_ascii_digit c = false /\ c <> c_underscore).
    { intros c x E. destruct (exp_start 101%N 69%N e r c x He E) as [->|[->|E2]]; try (repeat split; easy).
      destruct (Ha c x E2) as (H1 & H2 & H3). repeat split; auto. intros ->. specialize (Hr _ _ E2). discriminate Hr. }
    apply alt_second.
    + apply l_seq_rej, lit_rej. destruct Hd as (x & d' & -> & Hx & Hd').
      change (T "0x") with [48%N; 120%N]. cbn [app strip_prefix]. destruct (N.eqb 48 x); [|reflexivity].
      destruct d' as [|y d'].
      * cbn [app]. destruct ((f ++ e) ++ r) as [|c z] eqn:E; [reflexivity|].
        rewrite <- app_assoc in E. destruct (N.eqb_spec 120 c) as [<-|]; [|reflexivity]. exfalso.
        destruct (frac_start is_ascii_digit f (e ++ r) 120%N z Hf E) as [E2|[_ E2]]; [discriminate|].
        destruct (exp_start 101%N 69%N e r 120%N z He E2) as [E3|[E3|E3]]; try discriminate.
        specialize (Hr _ _ E3). discriminate Hr.
      * cbn [app]. apply Forall_inv in Hd'. destruct (N.eqb_spec 120 y) as [<-|]; [|reflexivity].
        destruct Hd' as [K|K]; discriminate K.
    + apply alt_first. apply l_seq_exact3.
      * apply digits_exact'; [exact Hd|]. intros c x E.
        destruct (frac_start is_ascii_digit f (e ++ r) c x Hf E) as [->|[_ E2]]; [split; easy|].
        destruct (Hc c x E2) as (_ & H2 & H3). auto.
      * apply opt_frac_exact; [exact Hf|exact Hc].
      * apply (opt_exp_exact 101%N 69%N); auto.
  - apply alt_second; [apply l_seq_rej, lit_rej; reflexivity|].
    apply alt_second; [apply l_seq_rej, l_seq_rej; now apply (dec_rej_alpha 105%N)|].
    apply alt_first, l_lit_exact.
  - apply alt_second; [apply l_seq_rej, lit_rej; reflexivity|].
    apply alt_second; [apply l_seq_rej, l_seq_rej; now apply (dec_rej_alpha 110%N)|].
    apply alt_second; [apply lit_rej; reflexivity|].
    rewrite <- (app_nil_r (T "nan")) at 1 2. apply l_seq_exact; [apply l_lit_exact|].
    apply (opt_exact _ (fun _ => False) [] r); [now left|tauto|]. intros _. apply l_seq_rej, lit_rej.
    destruct r as [|c x]; [reflexivity|]. change (T ":0x") with [58%N; 48%N; 120%N]. cbn [strip_prefix].
    destruct (N.eqb_spec 58 c) as [<-|]; [|reflexivity]. specialize (Hr _ _ eq_refl). discriminate Hr.
  - apply alt_second; [apply l_seq_rej, lit_rej; reflexivity|].
    apply alt_second; [apply l_seq_rej, l_seq_rej; now apply (dec_rej_alpha 110%N)|].
    apply alt_second; [apply lit_rej; reflexivity|].
    change (T "nan:0x" ++ h) with (T "nan" ++ T ":0x" ++ h). apply l_seq_exact; [apply l_lit_exact|].
    unfold l_opt. unfold l_seq at 1. rewrite <- app_assoc, l_lit_exact. unfold unsigned_hex.
    rewrite digits_exact by auto using hex_id. reflexivity.
Qed.
Lemma float_body_plain t r : FloatBody t -> plain_start (t ++ r).
Proof.
  intros H c x E.
  destruct H as [(x0 & y & -> & <- & _)|[(d & z & -> & (q & d' & -> & Hd & _) & _)|[->|[->|(x0 & h & -> & <- & Hh)]]]];
    injection E as <- _; auto using digit_not_sign.
Qed.
Lemma float_ok_spec h t :
  (forall p r, t = p ++ c_underscore :: r -> exists d r', r = d :: r' /\ is_ascii_digit d = true) ->
  float_ok h t = true.
Proof.
  assert (G : forall n t, length t <= n ->
    (forall p r, t = p ++ c_underscore :: r -> exists d r', r = d :: r' /\ is_ascii_digit d = true) ->
    float_ok h t = true); [|intros H; now apply (G (length t))].
  clear t. induction n as [|n IH]; intros t Hl H; destruct t as [|c t]; try reflexivity; [cbn in Hl; lia|].
  cbn [float_ok]. destruct (N.eqb_spec c c_underscore) as [->|Hc].
  - destruct (H [] t eq_refl) as (d & r' & -> & Hd).
    assert (E : (if h then is_ascii_hexdigit d else is_ascii_digit d) = true)
      by (destruct h; auto using digit_hex).
    rewrite E. cbn [andb]. apply IH; [cbn [length] in Hl; lia|]. intros p r ->.
    now apply (H (c_underscore :: d :: p) r).
  - apply IH; [cbn [length] in Hl; lia|]. intros p r ->. now apply (H (c :: p) r).
Qed.
Lemma float_exact t r : TokenForm FLOAT t -> Stop r -> r <> [] -> float_l (t ++ r) = LOk t r.
Proof.
  intros [(s & b & -> & Hs & Hb) [_ Hu]] Hr Hn. fold (FloatBody b) in Hb. unfold float_l.
  change (l_verify (l_opt (l_one is_sign) +> float_alts +> not_id_next)
            (fun s => float_ok (starts_with (T "0x") s) s) ((s ++ b) ++ r) = LOk (s ++ b) r).
  unfold l_verify.
  assert (E : (l_opt (l_one is_sign) +> float_alts +> not_id_next) ((s ++ b) ++ r) = LOk (s ++ b) r).
  { apply l_seq_exact; [apply sign_exact; [exact Hs|now apply float_body_plain]|].
    rewrite <- (app_nil_r b) at 1 2. apply (l_seq_exact float_alts not_id_next b []).
    - now apply float_body_exact.
    - now apply not_id_exact. }
  rewrite E. now rewrite float_ok_spec.
Qed.

(** ** Rejections of floats, integers and memory arguments *)
Lemma prefix_of_word p w r :
  Forall (fun c => is_id_char c = true) p -> Stop r -> strip_prefix p (w ++ r) <> None -> starts_with p w = true.
Proof.
  intros Hp Hr. unfold starts_with. revert w. induction Hp as [|c p Hc _ IH]; intros w; [reflexivity|].
  destruct w as [|x w].
  - cbn [app]. destruct r as [|y r]; cbn [strip_prefix]; [congruence|].
    destruct (N.eqb_spec c y) as [<-|]; [|congruence]. specialize (Hr _ _ eq_refl). congruence.
  - cbn [app strip_prefix]. destruct (N.eqb c x); [|congruence]. apply IH.
Qed.
Lemma prefix_word_none p w r :
  Forall (fun c => is_id_char c = true) p -> Stop r -> starts_with p w = false -> strip_prefix p (w ++ r) = None.
Proof.
  intros Hp Hr H. destruct (strip_prefix p (w ++ r)) eqn:E; [|reflexivity].
  rewrite (prefix_of_word p w r) in H; [discriminate|auto|auto|congruence].
Qed.
Ltac idc := repeat constructor.
Lemma alt_rej a b t : Rejects a t -> Rejects b t -> Rejects (l_alt a b) t.
Proof. intros (c & r & E) (c2 & r2 & E2). exists c2, r2. unfold l_alt. now rewrite E. Qed.
Lemma rej_ok l t : Rejects l t -> forall p, Rejects (l_verify l p) t.
Proof. intros (c & r & E) p. exists c, r. unfold l_verify. now rewrite E. Qed.
Lemma lower_not_sign c : is_ascii_lowercase c = true -> is_sign c = false.
Proof.
  unfold is_ascii_lowercase, in_range, is_sign. rewrite andb_true_iff, !N.leb_le. intros [H1 H2].
  destruct (N.eqb_spec c c_plus) as [->|]; [exfalso; revert H1; unfold c_plus; lia|].
  destruct (N.eqb_spec c c_minus) as [->|]; [exfalso; revert H1; unfold c_minus; lia|]. reflexivity.
Qed.
Lemma float_rej_word w r :
  starts_alpha w = true -> Stop r -> starts_with (T "inf") w = false -> starts_with (T "nan") w = false ->
  Rejects float_l (w ++ r).
Proof.
  intros Hw Hr H1 H2. unfold float_l. apply rej_ok. destruct w as [|c w]; [discriminate|].
  cbn [starts_alpha] in Hw. cbn [app].
  assert (Es : l_opt (l_one is_sign) ([] ++ c :: w ++ r) = LOk [] (c :: w ++ r)).
  { apply sign_exact; [now left|]. intros ? ? E. injection E as <- <-. now apply lower_not_sign. }
  apply (l_seq_rej2 _ _ [] (c :: w ++ r) Es). apply l_seq_rej.
  assert (R1 : Rejects (l_lit (T "0x")) (c :: w ++ r)).
  { apply lit_rej. change (T "0x") with [48%N; 120%N]. cbn [strip_prefix].
    destruct (N.eqb_spec 48 c) as [<-|]; [discriminate Hw|reflexivity]. }
  assert (N1 : strip_prefix (T "inf") (c :: w ++ r) = None).
  { apply (prefix_word_none (T "inf") (c :: w) r); auto. idc. }
  assert (N2 : strip_prefix (T "nan") (c :: w ++ r) = None).
  { apply (prefix_word_none (T "nan") (c :: w) r); auto. idc. }
  apply alt_rej; [now apply l_seq_rej|]. apply alt_rej; [apply l_seq_rej, l_seq_rej; now apply dec_rej_alpha|].
  apply alt_rej; [now apply lit_rej|]. apply l_seq_rej. now apply lit_rej.
Qed.
Lemma mem_rej_word w r :
  Stop r -> starts_with (T "offset=") w = false -> starts_with (T "align=") w = false ->
  Rejects mem_arg_l (w ++ r).
Proof.
  intros Hr H1 H2. unfold mem_arg_l.
  assert (N1 : strip_prefix (T "offset=") (w ++ r) = None).
  { apply prefix_word_none; auto. idc. }
  assert (N2 : strip_prefix (T "align=") (w ++ r) = None).
  { apply prefix_word_none; auto. idc. }
  destruct (strip_prefix (T "offset") (w ++ r)) as [r1|] eqn:E1.
  - apply strip_prefix_spec in E1. rewrite E1 in *. apply l_seq_rej2; [apply alt_first, l_lit_exact|].
    apply l_seq_rej, lit1_rej. intros c y -> ->. discriminate N1.
  - destruct (strip_prefix (T "align") (w ++ r)) as [r1|] eqn:E2.
    + apply strip_prefix_spec in E2. rewrite E2 in *. apply l_seq_rej2.
      * apply alt_second; [now apply lit_rej|apply l_lit_exact].
      * apply l_seq_rej, lit1_rej. intros c y -> ->. discriminate N2.
    + apply l_seq_rej, alt_rej; now apply lit_rej.
Qed.
