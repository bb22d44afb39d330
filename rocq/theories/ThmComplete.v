(** Property C48: the parser reads every well-formed document of
    [SpecComplete.v] without errors, and builds the tree the document was
    written from. *)

From Coq Require Import String List NArith Bool Arith Lia.
From Verif Require Import Text Kind Green SpecParser Lexer LexerFacts Winnow Grammar SpecComplete LexAccept TokAccept
  Streams Complete.
Import ListNotations.
Local Open Scope list_scope.

(** ** C48 *)

Theorem C48_complete dbg tree :
  Document tree -> parse dbg (gtext tree) = Parsed tree [].
Proof. apply parse_complete. Qed.
Print Assumptions C48_complete.

(** A text is the text of at most one well-formed document. *)
Theorem C48_unambiguous a b :
  Document a -> Document b -> gtext a = gtext b -> a = b.
Proof.
  intros Ha Hb E. pose proof (C48_complete true a Ha) as P. rewrite E, (C48_complete true b Hb) in P.
  now injection P.
Qed.
Print Assumptions C48_unambiguous.

(** ** Checking that a tree is a well-formed document *)

Definition nilb {A} (l : list A) : bool := match l with [] => true | _ => false end.
Fixpoint drop_trivia (l : list green) : list green :=
  match l with
  | Tok k t :: r => if is_trivia_kind k then drop_trivia r else l
  | _ => l
  end.
Lemma drop_trivia_ok l : exists tr, l = tr ++ drop_trivia l /\ Trivia tr.
Proof.
  induction l as [|g l (tr & E & H)]; [exists []; split; [reflexivity|constructor]|].
  destruct g as [k t|k cs]; [|exists []; split; [reflexivity|constructor]].
  cbn [drop_trivia]. destruct (is_trivia_kind k) eqn:Ek; [|exists []; split; [reflexivity|constructor]].
  exists (Tok k t :: tr). split; [cbn [app]; congruence|]. now constructor.
Qed.
Definition tightb (l : list green) : bool :=
  match l with Tok k _ :: _ => negb (is_trivia_kind k) | _ => true end.
(** What can be left of [l] after a beginning written as [e]. *)
Fixpoint rests (n : nat) (e : rx) (l : list green) : list (list green) :=
  match n with
  | 0 => []
  | S n =>
      match e with
      | Kw s => match drop_trivia l with
                | Tok KEYWORD t :: r => if text_eqb t (T s) then [r] else [] | _ => [] end
      | Tk k => match drop_trivia l with
                | Tok k' t :: r => if kind_eqb k k' && negb (is_trivia_kind k) then [r] else [] | _ => [] end
      | Float b => match drop_trivia l with
                   | Tok FLOAT t :: r => if Bool.eqb (starts_alpha t) b then [r] else [] | _ => [] end
      | Nd k e => match drop_trivia l with
                  | Node k' cs :: r =>
                      if kind_eqb k k' && tightb cs && existsb nilb (rests n e cs) then [r] else []
                  | _ => [] end
      | Loose k e => match l with
                     | Node k' cs :: r => if kind_eqb k k' && existsb nilb (rests n e cs) then [r] else []
                     | _ => [] end
      | Ins i => rests n (instr_rx i) l
      | Eps => [l]
      | Sq a b => flat_map (rests n b) (rests n a l)
      | Or a b => rests n a l ++ rests n b l
      | Star a => l :: flat_map (rests n (Star a))
                        (filter (fun r => length r <? length l) (rests n a l))
      end
  end.
Lemma rests_ok n : forall e l r, In r (rests n e l) -> exists m, l = m ++ r /\ Reads e m.
Proof.
  induction n as [|n IH]; intros e l r H; [destruct H|].
  assert (N : forall e cs, existsb nilb (rests n e cs) = true -> Reads e cs).
  { intros e' cs E. apply existsb_exists in E as (x & Hx & E). destruct x; [|discriminate].
    apply IH in Hx as (m & -> & Hm). now rewrite app_nil_r. }
  destruct e; cbn [rests] in H.
  - destruct (drop_trivia_ok l) as (tr & E & Ht). destruct (drop_trivia l) as [|[[] t|] x]; try (destruct H; fail).
    destruct (text_eqb_spec t (T s)) as [->|]; [|destruct H]. destruct H as [<-|[]].
    exists (tr ++ [Tok KEYWORD (T s)]). rewrite <- app_assoc. split; [exact E|now constructor].
  - destruct (drop_trivia_ok l) as (tr & E & Ht). destruct (drop_trivia l) as [|[k' t|] x]; try (destruct H; fail).
    destruct (kind_eqb k k') eqn:Ek; [|destruct H]. apply kind_eqb_eq in Ek as <-.
    destruct (is_trivia_kind k) eqn:Et; [destruct H|]. destruct H as [<-|[]].
    exists (tr ++ [Tok k t]). rewrite <- app_assoc. split; [exact E|now constructor].
  - destruct (drop_trivia_ok l) as (tr & E & Ht). destruct (drop_trivia l) as [|[[] t|] x]; try (destruct H; fail).
    destruct (Bool.eqb (starts_alpha t) named) eqn:Eb; [|destruct H]. apply Bool.eqb_prop in Eb. destruct H as [<-|[]].
    exists (tr ++ [Tok FLOAT t]). rewrite <- app_assoc. split; [exact E|now constructor].
  - destruct (drop_trivia_ok l) as (tr & E & Ht). destruct (drop_trivia l) as [|[|k' cs] x]; try (destruct H; fail).
    destruct (kind_eqb k k') eqn:Ek; [|destruct H]. apply kind_eqb_eq in Ek as <-.
    destruct (tightb cs) eqn:Et; [|destruct H]. cbn [andb] in H.
    destruct (existsb nilb (rests n e cs)) eqn:Er; [|destruct H]. destruct H as [<-|[]].
    exists (tr ++ [Node k cs]). rewrite <- app_assoc. split; [exact E|]. constructor; auto.
    destruct cs as [|[k0 t0|] cs]; try exact I. now apply negb_true_iff.
  - destruct l as [|[|k' cs] x]; try (destruct H; fail).
    destruct (kind_eqb k k') eqn:Ek; [|destruct H]. apply kind_eqb_eq in Ek as <-. cbn [andb] in H.
    destruct (existsb nilb (rests n e cs)) eqn:Er; [|destruct H]. destruct H as [<-|[]].
    exists [Node k cs]. split; [reflexivity|]. constructor; auto.
  - apply IH in H as (m & -> & Hm). exists m. split; [reflexivity|now constructor].
  - destruct H as [<-|[]]. exists []. split; [reflexivity|constructor].
  - apply in_flat_map in H as (x & H1 & H2). apply IH in H1 as (m1 & -> & R1). apply IH in H2 as (m2 & -> & R2).
    exists (m1 ++ m2). rewrite app_assoc. split; [reflexivity|now constructor].
  - apply in_app_or in H as [H|H]; apply IH in H as (m & -> & Hm); exists m; split; auto;
      [now apply R_OrL|now apply R_OrR].
  - destruct H as [<-|H]; [exists []; split; [reflexivity|constructor]|].
    apply in_flat_map in H as (x & H1 & H2). apply filter_In in H1 as [H1 _].
    apply IH in H1 as (m1 & -> & R1). apply IH in H2 as (m2 & -> & R2).
    exists (m1 ++ m2). rewrite app_assoc. split; [reflexivity|now constructor].
Qed.

(** Tokens of a simple form. *)
Definition all (p : char -> bool) (t : text) : bool := forallb p t.
Lemma all_ok p t : all p t = true -> Forall (fun c => p c = true) t.
Proof. unfold all. rewrite forallb_forall. now rewrite Forall_forall. Qed.
Definition decb (t : text) : bool := negb (nilb t) && all is_ascii_digit t.
Lemma decb_digits t : decb t = true -> Digits is_ascii_digit t.
Proof.
  unfold decb. rewrite andb_true_iff. intros [Hn H]. apply all_ok in H. destruct t as [|d r]; [discriminate|].
  inversion H; subst. exists d, r. repeat split; auto. eapply Forall_impl; [|eassumption]. auto.
Qed.
Lemma decb_ok t : decb t = true -> UIntForm t.
Proof.
  intros H. split; [left; now apply decb_digits|]. intros r E. subst t. unfold decb in H.
  apply andb_prop in H as [_ H]. apply all_ok in H. apply Forall_app in H as [_ H]. inversion H; subst. discriminate.
Qed.
(** [digits . digits] *)
Definition floatb (t : text) : bool :=
  let a := fst (span is_ascii_digit t) in
  match snd (span is_ascii_digit t) with
  | c :: b => N.eqb c c_dot && decb a && decb b
  | [] => false
  end.
Lemma span_split p t : t = fst (span p t) ++ snd (span p t).
Proof.
  induction t as [|c t IH]; [reflexivity|]. cbn [span]. destruct (p c); [|reflexivity].
  destruct (span p t) as [a b]. cbn [fst snd app] in *. congruence.
Qed.
Lemma floatb_ok t : floatb t = true -> TokenForm FLOAT t.
Proof.
  unfold floatb. pose proof (span_split is_ascii_digit t) as E.
  destruct (span is_ascii_digit t) as [a y]. cbn [fst snd] in *. destruct y as [|c b]; [discriminate|].
  rewrite !andb_true_iff. intros [[Hc Ha] Hb]. apply N.eqb_eq in Hc as ->. subst t.
  assert (NU : forall p r, a ++ c_dot :: b <> p ++ c_underscore :: r).
  { intros p r E. assert (Hi : In c_underscore (a ++ c_dot :: b)) by (rewrite E; apply in_elt).
    unfold decb in Ha, Hb. apply andb_prop in Ha as [_ Ha]. apply andb_prop in Hb as [_ Hb].
    apply in_app_or in Hi as [Hi|[Hi|Hi]]; [|discriminate Hi|];
      [unfold all in Ha; rewrite forallb_forall in Ha; apply Ha in Hi
      |unfold all in Hb; rewrite forallb_forall in Hb; apply Hb in Hi]; discriminate Hi. }
  split; [|split].
  - exists [], (a ++ c_dot :: b). split; [reflexivity|]. split; [now left|]. right. left.
    exists a, (c_dot :: b). split; [reflexivity|]. split; [now apply decb_digits|].
    exists (c_dot :: b), []. split; [now rewrite app_nil_r|]. split; [|now left].
    right. exists [c_dot], b. split; [reflexivity|]. split; [reflexivity|]. right. now apply decb_digits.
  - intros (s & u & E & Hs & [Hu _]).
    assert (Hd : In c_dot (s ++ u)) by (rewrite <- E; apply in_elt).
    apply in_app_or in Hd as [Hd|Hd].
    + destruct Hs as [->|[->| ->]]; [destruct Hd|destruct Hd as [Hd|[]]; discriminate Hd|destruct Hd as [Hd|[]]; discriminate Hd].
    + assert (G : forall p d, Digits p d -> p c_dot = false -> ~ In c_dot d).
      { intros p d (x & y & -> & Hx & Hy) Hp [Hi|Hi]; [congruence|]. rewrite Forall_forall in Hy.
        apply Hy in Hi as [Hi|Hi]; [congruence|discriminate Hi]. }
      destruct Hu as [Hu|(d & -> & Hu)]; [now apply (G _ _ Hu eq_refl)|].
      apply in_app_or in Hd as [Hd|Hd]; [|now apply (G _ _ Hu eq_refl)].
      destruct Hd as [Hd|[Hd|[]]]; discriminate Hd.
  - intros p r E. now apply NU in E.
Qed.
Lemma named_float_ok t : mem_text t ["inf"; "nan"]%string = true -> TokenForm FLOAT t.
Proof.
  intros H. apply mem_text_in in H. split; [|split].
  - exists [], t. split; [reflexivity|]. split; [now left|]. right. right.
    destruct H as [<-|[<-|[]]]; [left; reflexivity|]. right. left. reflexivity.
  - intros (s & u & E & Hs & [Hu _]).
    assert (D : exists d r, u = d :: r /\ is_ascii_digit d = true).
    { destruct Hu as [(d & r & -> & Hd & _)|(d & -> & _)]; [now exists d, r|].
      exists 48%N, (T "x" ++ d). split; reflexivity. }
    destruct D as (d & r & -> & Hd).
    assert (X : hd 0%N t = d \/ hd 0%N t = c_plus \/ hd 0%N t = c_minus).
    { rewrite E. destruct Hs as [->|[->| ->]]; cbn [app hd]; auto. }
    destruct H as [<-|[<-|[]]]; destruct X as [X|[X|X]]; try discriminate X; rewrite <- X in Hd; discriminate Hd.
  - intros p r E. exfalso.
    assert (Hi : In c_underscore t) by (rewrite E; apply in_elt).
    destruct H as [<-|[<-|[]]]; repeat (destruct Hi as [Hi|Hi]; [discriminate Hi|]); destruct Hi.
Qed.
Definition str_char (c : char) : bool :=
  negb (N.eqb c c_bslash) && negb (N.eqb c c_quote) && negb (N.eqb c c_lf) && negb (N.eqb c c_cr).
Lemma str_body t : all str_char t = true -> StrBody t.
Proof.
  intros H. apply all_ok in H. induction t as [|c t IH] using rev_ind; [constructor|].
  apply Forall_app in H as [H1 H2]. inversion H2; subst. unfold str_char in H3.
  rewrite !andb_true_iff, !negb_true_iff, !N.eqb_neq in H3. apply SB_char; tauto.
Qed.
Definition quotedb (t : text) : bool :=
  match t with
  | c :: r => N.eqb c c_quote && match rev r with
                                | d :: b => N.eqb d c_quote && all str_char (rev b) | [] => false end
  | [] => false
  end.
Lemma quotedb_ok t : quotedb t = true -> TokenForm STRING t.
Proof.
  destruct t as [|c r]; [discriminate|]. cbn [quotedb]. rewrite andb_true_iff. intros [Hc H].
  apply N.eqb_eq in Hc as ->. destruct (rev r) as [|d b] eqn:E; [discriminate|]. apply andb_prop in H as [Hd H].
  apply N.eqb_eq in Hd as ->. apply str_body in H.
  assert (Er : r = rev b ++ [c_quote]) by (rewrite <- (rev_involutive r), E; reflexivity). subst r.
  split; exists (rev b); split; auto.
Qed.
Definition prefixb (p t : text) : bool := starts_with p t.
Definition comment_char (c : char) : bool := negb (N.eqb c c_lparen) && negb (N.eqb c c_semi).
Lemma comment_body t : all comment_char t = true -> CommentBody t.
Proof.
  intros H. apply all_ok in H. induction H as [|c t Hc _ IH]; [constructor|]. constructor; [|exact IH].
  unfold comment_char in Hc. rewrite andb_true_iff, !negb_true_iff, !N.eqb_neq in Hc.
  intros d r [<-|[<-|[]]] E; apply (f_equal (fun l => hd 0%N l)) in E; cbn [hd] in E; subst c;
    destruct Hc as [H1 H2]; [now apply H1|now apply H2].
Qed.
Definition tokb (k : kind) (t : text) : bool :=
  match k with
  | WHITESPACE => negb (nilb t) && all (fun c => existsb (N.eqb c) (T " " ++ [c_tab; c_lf; c_cr])) t
  | LINE_COMMENT => starts_with (T ";;") t && all (fun c => negb (N.eqb c c_lf) && negb (N.eqb c c_cr)) (skipn 2 t)
  | BLOCK_COMMENT =>
      let b := firstn (length t - 4) (skipn 2 t) in
      text_eqb t (T "(;" ++ b ++ T ";)") && all comment_char b
  | L_PAREN => text_eqb t (T "(")
  | R_PAREN => text_eqb t (T ")")
  | INSTR_NAME => wordb t && negb (mem_text t reserved)
      && negb (existsb (fun p => starts_with (T p) t) ["inf"; "nan"; "offset="; "align="]%string)
  | IDENT => match t with c :: r => N.eqb c c_dollar && negb (nilb r) && all is_id_char r | [] => false end
  | STRING => quotedb t
  | INT | UNSIGNED_INT => decb t
  | FLOAT => floatb t || mem_text t ["inf"; "nan"]%string
  | MEM_ARG => (starts_with (T "offset=") t && decb (skipn 7 t)) || (starts_with (T "align=") t && decb (skipn 6 t))
  | KEYWORD | NUM_TYPE | VEC_TYPE | REF_TYPE | HEAP_TYPE | SHARE => mem_text t (kwords k)
  | _ => false
  end.
Lemma starts_skip p t : starts_with p t = true -> t = p ++ skipn (length p) t.
Proof.
  intros H. apply starts_prefix in H as (r & ->). f_equal.
  now rewrite skipn_app, skipn_all, Nat.sub_diag.
Qed.
Lemma tokb_ok k t : tokb k t = true -> TokenForm k t.
Proof.
  destruct k; try discriminate; cbn [tokb]; intros H.
  - apply andb_prop in H as [Hn H]. apply all_ok in H. split; [|exact I]. split; [destruct t; discriminate|].
    eapply Forall_impl; [|exact H]. intros c Hc. apply existsb_exists in Hc as (x & Hx & E). apply N.eqb_eq in E as ->.
    exact Hx.
  - apply andb_prop in H as [Hp H]. apply starts_skip in Hp. apply all_ok in H. split; [|exact I].
    exists (skipn 2 t). split; [exact Hp|]. eapply Forall_impl; [|exact H]. intros c Hc.
    rewrite andb_true_iff, !negb_true_iff, !N.eqb_neq in Hc. exact Hc.
  - apply andb_prop in H as [He H]. apply text_eqb_eq in He. split; [|exact I].
    exists (firstn (length t - 4) (skipn 2 t)). split; [exact He|now apply comment_body].
  - apply text_eqb_eq in H as ->. split; [reflexivity|exact I].
  - apply text_eqb_eq in H as ->. split; [reflexivity|exact I].
  - apply mem_text_in in H. split; [exact H|exact I].
  - apply andb_prop in H as [H Hp]. apply andb_prop in H as [Hw Hr]. split; [now apply wordb_ok|]. split.
    + intros Hi. apply mem_text_in in Hi. rewrite Hi in Hr. discriminate.
    + intros p Hi Hpre. apply negb_true_iff in Hp. rewrite <- not_true_iff_false in Hp. apply Hp.
      apply existsb_exists. exists p. split; [exact Hi|now apply starts_prefix].
  - destruct t as [|c r]; [discriminate|]. rewrite !andb_true_iff in H. destruct H as [[Hc Hn] H].
    apply N.eqb_eq in Hc as ->. split; [|exact I]. exists r. repeat split; [destruct r; discriminate|now apply all_ok].
  - now apply quotedb_ok.
  - split; [|exact I]. exists [], t. split; [reflexivity|]. split; [now left|now apply decb_ok].
  - split; [|exact I]. now apply decb_ok.
  - apply orb_prop in H as [H|H]; [now apply floatb_ok|now apply named_float_ok].
  - apply mem_text_in in H. split; [exact H|exact I].
  - apply mem_text_in in H. split; [exact H|exact I].
  - apply mem_text_in in H. split; [exact H|exact I].
  - apply mem_text_in in H. split; [exact H|exact I].
  - apply mem_text_in in H. split; [exact H|exact I].
  - split; [|exact I]. apply orb_prop in H as [H|H]; apply andb_prop in H as [Hp H]; apply starts_skip in Hp;
      apply decb_ok in H.
    + exists (skipn 7 t). split; [left; exact Hp|exact H].
    + exists (skipn 6 t). split; [right; exact Hp|exact H].
Qed.
Definition followsb (k : kind) (r : text) : bool :=
  match k with
  | STRING | BLOCK_COMMENT | R_PAREN => true
  | L_PAREN => negb (starts_with [c_semi] r)
  | WHITESPACE => match r with c :: _ => negb (existsb (N.eqb c) (T " " ++ [c_tab; c_lf; c_cr])) | [] => true end
  | LINE_COMMENT => nilb r || starts_with [c_lf] r || starts_with [c_cr; c_lf] r
  | _ => match r with c :: _ => negb (is_id_char c) | [] => true end
  end.
Lemma followsb_ok k r : followsb k r = true -> Follows k r.
Proof.
  assert (D : match r with c :: _ => negb (is_id_char c) | [] => true end = true ->
    forall c x, r = c :: x -> is_id_char c = false).
  { intros H c x ->. now apply negb_true_iff. }
  destruct k; cbn [followsb Follows]; try exact D; auto.
  - intros H c x -> Hi. rewrite negb_true_iff in H. rewrite <- not_true_iff_false in H. apply H.
    apply existsb_exists. exists c. split; [exact Hi|apply N.eqb_refl].
  - intros H. apply orb_prop in H as [H|H]; [apply orb_prop in H as [H|H]|].
    + left. destruct r; [reflexivity|discriminate].
    + right. left. now apply starts_prefix.
    + right. right. now apply starts_prefix.
  - intros H Hp. apply starts_prefix in Hp. rewrite Hp in H. discriminate.
Qed.
Fixpoint sepb (ts : list (kind * text)) : bool :=
  match ts with
  | [] => true
  | (k, t) :: r => tokb k t && followsb k (texts r) && sepb r
  end.
Lemma sepb_ok ts : sepb ts = true -> Separated ts.
Proof.
  induction ts as [|[k t] ts IH]; [reflexivity|]. cbn [sepb Separated]. rewrite !andb_true_iff. intros [[H1 H2] H3].
  auto using tokb_ok, followsb_ok.
Qed.
Definition documentb (tree : green) : bool :=
  match tree with
  | Node ROOT l =>
      existsb (fun r => nilb (drop_trivia r)) (rests (100 + length (gtokens tree)) (Star MODULE_) l)
      && sepb (gtokens tree)
  | _ => false
  end.
Lemma documentb_ok tree : documentb tree = true -> Document tree.
Proof.
  destruct tree as [|k l]; [discriminate|]. destruct k; try discriminate. unfold documentb.
  rewrite andb_true_iff. intros [H Hs]. apply existsb_exists in H as (r & Hr & H).
  apply rests_ok in Hr as (m & -> & Hm). destruct (drop_trivia_ok r) as (tr & E & Ht).
  destruct (drop_trivia r); [|discriminate]. rewrite app_nil_r in E. subst r.
  exists m, tr. repeat split; auto. now apply sepb_ok.
Qed.

(** A document with all kinds of fields, blocks, operands and comments. *)
Definition big : text := T "(;head;)
(module $m ;; a module
  (type $t (func (param $x i32) (param i64 f32) (result i32)))
  (import ""env"" ""log"" (func $log (param i32)))
  (import ""env"" ""g"" (global $ig (mut i32)))
  (import ""env"" ""mem"" (memory 1 2))
  (import ""env"" ""tab"" (table 1 funcref))
  (memory $mem (data ""abc""))
  (table $tab funcref (elem $f 1))
  (table 1 2 externref)
  (global $g (mut i32) (i32.const 1))
  (global f64 f64.const 1.5)
  (export ""f"" (func $f)) (export ""m"" (memory 0))
  (start $f)
  (data $d (memory 0) (offset i32.const 0) ""x"" ""y"")
  (data (i32.const 8) ""z"")
  (elem $e (i32.const 0) $f $log)
  (elem declare func $f)
  (elem (table 0) (offset (i32.const 0)) funcref (ref.func $f) (item ref.null func))
  (func $f (export ""g"") (type $t) (local $l i32) (local i32 i64)
    local.get $l
    (i32.add (local.get 0) (i32.const 0))
    block $b (result i32)
      (br_if $b (i32.const 1) (i32.eqz (i32.const 0)))
      i32.const 7
    end $b
    if $i
      nop
    else
      unreachable
    end
    (if (result i32) (i32.const 0) (then (i32.const 1)) (else (i32.const 2)))
    loop (param i32) br 0 end
    (loop $o (call_indirect (type $t) (i32.const 0)))
    i32.load offset=4 align=2
    (block (drop (f32.const nan)) (f64.store align=8))))
(module)
".
Definition big_tree : green := match parse true big with Parsed t _ => t | _ => Node ROOT [] end.
Example C48_document : documentb big_tree = true.
Proof. vm_compute. reflexivity. Qed.
Example C48_example :
  Document big_tree /\ gtext big_tree = big /\ parse false big = Parsed big_tree [].
Proof.
  assert (D : Document big_tree) by (apply documentb_ok; exact C48_document).
  assert (E : gtext big_tree = big) by (vm_compute; reflexivity).
  split; [exact D|]. split; [exact E|]. rewrite <- E. now apply C48_complete.
Qed.
