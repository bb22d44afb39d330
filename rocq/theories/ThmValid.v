(** Type diagnostics and WebAssembly's typing rules (C56). *)

From Coq Require Import String List NArith Bool Arith Lia.
From Verif Require Import Text Kind Green SpecParser Lexer Red LineIndex Cursor Doc Ast Binder SpecBinder Nav NavSpec InstrMeta Types Check SpecTypes SigFacts
  CheckMsgs CheckFacts BinderFacts ThmCheck ThmTypeck SpecInstr ThmInstr SpecValid.
Import ListNotations.

(** ** The table *)

Lemma no_row : map (fun n => match meta_of (Text.T n) with None => true | Some _ => false end) ["call"; "nop"]%string = [true; true].
Proof. vm_compute. reflexivity. Qed.
Definition special : list string := ["call"; "local.get"; "global.get"; "local.set"; "local.tee"; "global.set"; "drop"; "select"; "unreachable"]%string.
Lemma not_special : forallb (fun s => negb (existsb (String.eqb (fst (fst s))) special)) signatures = true.
Proof. vm_compute. reflexivity. Qed.
Lemma sig_not_special n ps rs : In (n, ps, rs) signatures -> ~ In n special.
Proof.
  intros H X. pose proof not_special as A. rewrite forallb_forall in A. apply A in H. cbn [fst] in H.
  rewrite negb_true_iff in H. apply not_true_iff_false in H. apply H. apply existsb_exists. exists n. now rewrite String.eqb_refl.
Qed.
Lemma sig_row n ps rs : In (n, ps, rs) signatures -> exists m, Row (Text.T n) m /\ m_params m = map OVal ps /\ m_results m = map OVal rs.
Proof.
  intros H. destruct (proj2 (C51_types (Text.T n) (map Some ps) (map Some rs))) as (m & R & A & B).
  - exists n. split; [|reflexivity]. unfold typed. apply in_or_app. left. apply in_map_iff. now exists (n, ps, rs).
  - exists m. rewrite map_map in A, B. auto.
Qed.
Lemma gen_row n ps rs : In (n, ps, rs) generic -> exists m, Row (Text.T n) m /\ m_params m = map op_of ps /\ m_results m = map op_of rs.
Proof.
  intros H. apply (proj2 (C51_types (Text.T n) ps rs)). exists n. split; [|reflexivity]. unfold typed. apply in_or_app. now right.
Qed.

(** What the checker knows of a type. *)
Definition Abs (p : optype) (t : valtype) : Prop := p = OGeneric \/ p = OVal t.
Lemma abs_vals ts : Forall2 Abs (map OVal ts) ts.
Proof. induction ts; constructor; auto. now right. Qed.
Lemma abs_fits P ts : Forall2 Abs P ts -> forall A, Forall2 Abs A ts -> Forall2 Fits P A.
Proof.
  induction 1 as [|p t P ts H _ IH]; intros A HA; inversion HA as [|a ? A' ? Ha HA']; subst; constructor; auto.
  intros x y -> ->. destruct H as [H|H], Ha as [Ha|Ha]; congruence.
Qed.
Lemma T_neq a b : a <> b -> Text.T a <> Text.T b.
Proof. intros N E. now apply N, T_inj. Qed.

Section Doc.
  Variable src : text.
  Notation tree := (tree_of src).

  Lemma called_inj e a b : Called e (Text.T a) -> Called e (Text.T b) -> a = b.
  Proof. intros A B. apply T_inj. exact (called_fun e _ _ A B). Qed.
  Ltac other := let H := fresh in intros H; cbn [map In] in H; decompose [or] H; try contradiction;
    match goal with E : Text.T _ = Text.T _ |- _ => apply T_inj in E; discriminate E end.

  (** What the checker takes an instruction for. *)
  Lemma typed_known e ps rs : ekind e = PLAIN_INSTR -> Typed src e ps rs -> OwnParams src e ->
    exists P R, Takes src e P /\ Yields src e R /\ Forall2 Abs P ps /\ Forall2 Abs R rs.
  Proof.
    intros K T O.
    assert (G : forall n P R, In (n, P, R) generic -> n <> "local.get"%string -> n <> "global.get"%string -> Called e (Text.T n) ->
      Takes src e (map op_of P) /\ Yields src e (map op_of R)).
    { intros n P R Hi N1 N2 C. destruct (gen_row n P R Hi) as (m & Rw & <- & <-).
      assert (N0 : n <> "call"%string). { intros ->. cbn in Hi. decompose [or] Hi; try discriminate; contradiction. }
      split; [apply Takes_row with (Text.T n); auto using T_neq|]. left. split; [exact K|]. apply Gives_row with (Text.T n); auto.
      cbn [map In]. intros [E|[E|[E|[]]]]; apply T_inj in E; congruence. }
    destruct T as [n ps rs C Hi|o f ps rs C Fo M F|t C L|t C L|t C L|t C L|t C L|t C|t C].
    - destruct (sig_row n ps rs Hi) as (m & Rw & A & B). pose proof (sig_not_special n ps rs Hi) as Ns.
      exists (map OVal ps), (map OVal rs). split; [|split; [|split; apply abs_vals]].
      + rewrite <- A. apply Takes_row with (Text.T n); auto. apply T_neq. intros ->. apply Ns. now left.
      + left. split; [exact K|]. rewrite <- B. apply Gives_row with (Text.T n); auto.
        cbn [map In]. intros [E|[E|[E|[]]]]; apply T_inj in E; subst n; apply Ns; cbn; auto.
    - exists (map OVal ps), (map OVal rs). split; [|split; [|split; apply abs_vals]].
      + replace ps with (firstn (length (declared_params f)) ps) by (rewrite (O o f ps rs C Fo M F); apply firstn_all).
        now apply Takes_call with o rs.
      + left. split; [exact K|]. now apply Gives_call with o f ps.
    - exists [], [OVal t]. split; [|split; [|split; [constructor|exact (abs_vals [t])]]].
      + destruct (gen_row "local.get" [] [None]) as (m & Rw & A & _); [cbn; auto 10|].
        change [] with (map op_of []). rewrite <- A. apply Takes_row with (Text.T "local.get"); auto. apply T_neq. discriminate.
      + left. split; [exact K|]. destruct L as (o & w & f & d & L1 & L2 & L3 & L4 & L5 & L6). now apply Gives_local with o w f d.
    - destruct (G "local.set"%string [None] [] ltac:(cbn; auto 15) ltac:(discriminate) ltac:(discriminate) C) as (A & B).
      exists [OGeneric], []. split; [exact A|]. split; [exact B|]. split; repeat constructor.
    - destruct (G "local.tee"%string [None] [None] ltac:(cbn; auto 15) ltac:(discriminate) ltac:(discriminate) C) as (A & B).
      exists [OGeneric], [OGeneric]. split; [exact A|]. split; [exact B|]. split; repeat constructor.
    - exists [], [OVal t]. split; [|split; [|split; [constructor|exact (abs_vals [t])]]].
      + destruct (gen_row "global.get" [] [None]) as (m & Rw & A & _); [cbn; auto 10|].
        change [] with (map op_of []). rewrite <- A. apply Takes_row with (Text.T "global.get"); auto. apply T_neq. discriminate.
      + left. split; [exact K|]. destruct L as (o & g & L1 & L2 & L3). now apply Gives_global with o g.
    - destruct (G "global.set"%string [None] [] ltac:(cbn; auto 15) ltac:(discriminate) ltac:(discriminate) C) as (A & B).
      exists [OGeneric], []. split; [exact A|]. split; [exact B|]. split; repeat constructor.
    - destruct (G "drop"%string [None] [] ltac:(cbn; auto 15) ltac:(discriminate) ltac:(discriminate) C) as (A & B).
      exists [OGeneric], []. split; [exact A|]. split; [exact B|]. split; repeat constructor.
    - destruct (G "select"%string [None; None; Some VI32] [None] ltac:(cbn; auto 15) ltac:(discriminate) ltac:(discriminate) C) as (A & B).
      exists [OGeneric; OGeneric; OVal VI32], [OGeneric]. split; [exact A|]. split; [exact B|]. split; [|repeat constructor].
      constructor; [now left|]. constructor; [now left|]. constructor; [now right|constructor].
  Qed.

  (** An instruction with one type, or [drop]. *)
  Lemma single_known e n ps rs : ekind e = PLAIN_INSTR -> Called e (Text.T n) -> In n single -> Typed src e ps rs -> OwnParams src e ->
    Yields src e (map OVal rs)
    /\ (Takes src e (map OVal ps) \/ Takes src e [OGeneric] /\ rs = [] /\ forall t, Typed src e [t] []).
  Proof.
    intros K Cn Hn T O.
    assert (X : n = "drop"%string \/ n <> "drop"%string) by (destruct (string_dec n "drop"); auto).
    assert (Sg : forall n', Called e (Text.T n') -> In n' single). { intros n' C'. now rewrite (called_inj e n' n C' Cn). }
    assert (Ns : forall n', In n' ["local.set"; "local.tee"; "global.set"; "select"]%string -> ~ In n' single).
    { intros n' H1 H2. unfold single in H2. apply in_app_or in H2 as [H2|H2].
      - cbn in H1, H2. decompose [or] H1; subst; decompose [or] H2; try discriminate; contradiction.
      - apply in_map_iff in H2 as (((n'' & ps') & rs') & E & H2). cbn [fst] in E. subst n''. apply (sig_not_special _ _ _ H2). cbn in H1 |- *. tauto. }
    destruct T as [n' ps rs C Hi|o f ps rs C Fo M F|t C L|t C L|t C L|t C L|t C L|t C|t C];
      try (exfalso; refine (Ns _ _ (Sg _ C)); cbn; auto 10; fail).
    - destruct (sig_row n' ps rs Hi) as (m & Rw & A & B). pose proof (sig_not_special n' ps rs Hi) as Nsp. split; [|left].
      + left. split; [exact K|]. rewrite <- B. apply Gives_row with (Text.T n'); auto.
        cbn [map In]. intros [E|[E|[E|[]]]]; apply T_inj in E; subst n'; apply Nsp; cbn; auto.
      + rewrite <- A. apply Takes_row with (Text.T n'); auto. apply T_neq. intros ->. apply Nsp. now left.
    - split; [|left].
      + left. split; [exact K|]. now apply Gives_call with o f ps.
      + replace ps with (firstn (length (declared_params f)) ps) by (rewrite (O o f ps rs C Fo M F); apply firstn_all).
        now apply Takes_call with o rs.
    - split; [|left].
      + left. split; [exact K|]. destruct L as (o & w & f & d & L1 & L2 & L3 & L4 & L5 & L6). now apply Gives_local with o w f d.
      + destruct (gen_row "local.get" [] [None]) as (m & Rw & A & _); [cbn; auto 10|].
        change (map OVal []) with (map op_of []). rewrite <- A. apply Takes_row with (Text.T "local.get"); auto. apply T_neq. discriminate.
    - split; [|left].
      + left. split; [exact K|]. destruct L as (o & g & L1 & L2 & L3). now apply Gives_global with o g.
      + destruct (gen_row "global.get" [] [None]) as (m & Rw & A & _); [cbn; auto 10|].
        change (map OVal []) with (map op_of []). rewrite <- A. apply Takes_row with (Text.T "global.get"); auto. apply T_neq. discriminate.
    - destruct (gen_row "drop" [None] []) as (m & Rw & A & B); [cbn; auto 10|]. split; [|right; split; [|split; [reflexivity|]]].
      + left. split; [exact K|]. cbn [map]. change [] with (map op_of []). rewrite <- B. apply Gives_row with (Text.T "drop"); auto.
        cbn [map In]. intros [E|[E|[E|[]]]]; apply T_inj in E; discriminate.
      + change [OGeneric] with (map op_of [None]). rewrite <- A. apply Takes_row with (Text.T "drop"); auto. apply T_neq. discriminate.
      + intros t'. now apply Ty_drop.
  Qed.

  Lemma expr_plain e rs : Expr src e rs -> ekind e = PLAIN_INSTR.
  Proof. now destruct 1. Qed.

  Lemma block_kind e : Block src e -> ekind e <> PLAIN_INSTR.
  Proof. intros (_ & [(K & _)|(K & _)]) E; rewrite E in K; [destruct K as [K|[K|[]]]|]; discriminate K. Qed.
  Lemma arguments_plain e : ekind e = PLAIN_INSTR ->
    arguments e = flat_map (fun o => match inside o with Some i => [i] | None => [] end) (childs e OPERAND).
  Proof. intros K. unfold arguments. now rewrite K. Qed.
  Lemma in_arguments e a : In a (arguments e) -> In a (children e) \/ exists o, In o (childs e OPERAND) /\ inside o = Some a.
  Proof.
    unfold arguments. intros H. destruct (ekind e); try destruct H.
    1: { apply in_flat_map in H as (o & Ho & H). right. exists o. split; [exact Ho|]. destruct (inside o) as [i|]; [|destruct H]. now destruct H as [<-|[]]. }
    left. unfold body in H. now apply filter_In in H.
  Qed.

  (** ** Code without errors is accepted *)

  Lemma line_runs st l st' : Line src st l st' -> forall A, Forall2 Abs A st -> Runs src A l.
  Proof.
    induction 1 as [st|st e rs l st' E H IH|low ps rs e l st' K Lp T O H IH|st e l st' B H IH]; intros A HA; [constructor|..].
    - destruct E as [e tss ps rs K Lp T W O _ _]. destruct (typed_known e ps rs K T O) as (P & R & TP & YR & AP & AR).
      apply Runs_folded with P R; auto. apply IH. now apply Forall2_app.
    - destruct (typed_known e ps rs K T O) as (P & R & TP & YR & AP & AR).
      apply Forall2_app_inv_r in HA as (lowA & args & HL & Hargs & ->).
      apply Runs_plain with P R; auto; [eapply abs_fits; eauto|]. apply IH. now apply Forall2_app.
    - apply Runs_block; [now apply (block_kind e)|]. now apply IH.
  Qed.

  Lemma inside_in o i : inside o = Some i -> In i (children o).
  Proof. unfold inside. intros H. now apply find_some in H. Qed.

  (** The operands of an instruction that is written out. *)
  Lemma arguments_split k l : (forall o, In o (firstn k l) -> inside o = None) ->
    flat_map (fun o => match inside o with Some i => [i] | None => [] end) l
    = flat_map (fun o => match inside o with Some i => [i] | None => [] end) (skipn k l).
  Proof.
    revert l. induction k as [|k IH]; intros [|o l] H; try reflexivity. cbn [firstn skipn flat_map] in *.
    rewrite (H o) by now left. cbn [app]. apply IH. intros x Hx. apply H. now right.
  Qed.
  Definition silent (o : elem) : bool := match inside o with None => true | Some _ => false end.
  Lemma silent_count k l : k <= length l -> (forall o, In o (firstn k l) -> inside o = None) ->
    (forall o, In o (skipn k l) -> inside o <> None) -> length (filter silent l) = k.
  Proof.
    revert k. induction l as [|o l IH]; intros [|k] Hl Hf Hs; cbn [length] in Hl; try reflexivity; [lia| |].
    - cbn [skipn] in Hs. cbn [filter]. unfold silent at 1. destruct (inside o) as [i|] eqn:E; [|now destruct (Hs o (or_introl eq_refl))].
      apply (IH 0); [lia|intros ? []|]. intros x Hx. apply Hs. now right.
    - cbn [firstn skipn filter] in *. unfold silent at 1. rewrite (Hf o) by now left. cbn [length]. f_equal. apply IH; [lia| |exact Hs].
      intros x Hx. apply Hf. now right.
  Qed.

  Lemma arg_tree e o i : InTree tree e -> In o (childs e OPERAND) -> inside o = Some i -> InTree tree o /\ InTree tree i.
  Proof.
    intros T Ho Hi. assert (To : InTree tree o) by (now apply (in_tree_childs src e OPERAND)).
    split; [exact To|]. eapply inside_tree; eauto.
  Qed.
  Lemma arguments_tree e a : InTree tree e -> In a (arguments e) -> InTree tree a.
  Proof.
    intros T H. apply in_arguments in H as [H|(o & Ho & E)]; [eapply in_tree_child; eauto|]. now destruct (arg_tree e o a T Ho E).
  Qed.
  Lemma receives_args l ts : Receives src l ts -> (forall o, In o l -> InTree tree o) ->
    forall tss, Forall2 (fun a u => exists R, Yields src a R /\ Forall2 Abs R u) (flat_map (fun o => match inside o with Some i => [i] | None => [] end) l) tss ->
    Forall2 Abs ts (concat tss).
  Proof.
    induction 1 as [|o i l ts rest E Y H IH|o l rest E H IH]; intros T tss HF.
    - inversion HF. constructor.
    - cbn [flat_map] in HF. rewrite E in HF. cbn [app] in HF. inversion HF as [|? u ? tss' (R & YR & AR) HF']; subst. cbn [concat].
      assert (Ti : InTree tree i) by (eapply inside_tree; eauto; apply T; now left).
      rewrite (yields_fun src i ts R Ti Y YR). apply Forall2_app; [exact AR|]. apply IH; [|exact HF']. intros x Hx. apply T. now right.
    - cbn [flat_map] in HF. rewrite E in HF. cbn [app] in HF. apply IH; [|exact HF]. intros x Hx. apply T. now right.
  Qed.
  Lemma immediates_fun e k k' : Immediates e k -> Immediates e k' -> k = k'.
  Proof.
    intros H H'. assert (C : exists nm, Called e nm). { destruct H as [[C _]|[(x & m & C & _)|(x & C & _)]]; eauto. }
    destruct C as (nm & C). apply (immediates_iff e nm C) in H, H'. congruence.
  Qed.

  Lemma expr_fits e rs : InTree tree e -> Expr src e rs -> FoldedFits src e.
  Proof.
    intros T E. revert T. destruct E as [e' tss ps rs' K Lp Ty W O HF <-]. intros T k Hk args. destruct W as (k' & Hk' & Hl & Hf & Hs).
    rewrite (immediates_fun e' k' k Hk' Hk) in *. clear k' Hk'. split; [intros _; exact Hs|]. intros P ts HP HR.
    destruct (typed_known e' _ rs' K Ty O) as (P' & R & TP & _ & AP & _). rewrite (takes_fun src e' P P' T HP TP). clear P HP.
    assert (A : Forall2 Abs ts (concat tss)).
    { apply (receives_args args ts HR).
      - intros o Ho. unfold args in Ho. assert (Ho' : In o (childs e' OPERAND)) by (rewrite <- (firstn_skipn k (childs e' OPERAND)); apply in_or_app; now right).
        now apply (in_tree_childs src e' OPERAND).
      - unfold args. rewrite <- (arguments_split k (childs e' OPERAND) Hf), <- (arguments_plain e' K).
        clear -HF. induction HF as [|a u l' tss Ea _ IH]; constructor; [|exact IH]. destruct Ea as [a tssa psa rsa Ka La Ta Wa Oa _ _].
        destruct (typed_known a psa rsa Ka Ta Oa) as (_ & Ra & _ & Ya & _ & Aa). eauto. }
    pose proof (silent_count k _ Hl Hf Hs) as Hc. unfold silent in Hc. rewrite Hc.
    pose proof (Forall2_length _ _ _ AP). pose proof (Forall2_length _ _ _ A). split; [lia|].
    apply (fits_forall2 P' ts); [congruence|]. eapply abs_fits; eauto.
  Qed.

  (** ** Code that is accepted has no errors *)

  Lemma valid_app st l st1 : Valid src st l st1 -> forall l' st2, Valid src st1 l' st2 -> Valid src st (l ++ l') st2.
  Proof.
    induction 1; intros l' st2 H'; cbn [app]; [exact H'|eapply Valid_instr|eapply Valid_unreachable|eapply Valid_block|eapply Valid_if]; eauto.
  Qed.
  Lemma valid_frame x st l st' : Valid src st l st' -> Valid src (x ++ st) l (x ++ st').
  Proof.
    induction 1 as [st|low ps rs e l st T _ IH|st e l st1 st' C _ IH|st e ls rs l st' K B U V _ _ IH|low e ls ls' rs l st' K B U V _ U' V' _ _ IH];
      rewrite ?app_assoc in *; [constructor|..].
    - now apply Valid_instr with rs.
    - now apply Valid_unreachable with (x ++ st1).
    - now apply Valid_block with ls rs.
    - now apply Valid_if with ls ls' rs.
  Qed.
  (** A block that takes and gives nothing. *)
  Lemma block_valid e : Block src e -> exists fl, Unfolds e fl /\ forall st, Valid src st fl st.
  Proof.
    intros (B & [(K & ls & U & V)|(K & (ls & U & V) & (ls1 & U1 & V1) & (ls2 & U2 & V2))]).
    - exists [e]. split.
      + change [e] with (concat (@nil (list elem)) ++ [e]). constructor. unfold arguments. destruct K as [<-|[<-|[]]]; constructor.
      + intros st. apply Valid_block with ls []; auto. rewrite app_nil_r. constructor.
    - exists (concat ls ++ [e]). split; [constructor; unfold arguments; now rewrite K|]. intros st.
      apply (valid_app st (concat ls) (st ++ [VI32])).
      + rewrite <- (app_nil_r st) at 1. now apply valid_frame.
      + apply Valid_if with ls1 ls2 []; auto. rewrite app_nil_r. constructor.
  Qed.
  Lemma valid_all ls rss : Forall2 (fun f rs => forall st, Valid src st f (st ++ rs)) ls rss -> forall st, Valid src st (concat ls) (st ++ concat rss).
  Proof.
    induction 1 as [|f rs ls rss H _ IH]; intros st; cbn [concat]; [rewrite app_nil_r; constructor|].
    eapply valid_app; [apply H|]. rewrite app_assoc. apply IH.
  Qed.
  Lemma valid_fold e fs rss rs : Typed src e (concat rss) rs -> Forall2 (fun f rs => forall st, Valid src st f (st ++ rs)) fs rss ->
    forall st, Valid src st (concat fs ++ [e]) (st ++ rs).
  Proof.
    intros T H st. eapply valid_app; [exact (valid_all fs rss H st)|]. apply Valid_instr with rs; [exact T|constructor].
  Qed.

  Lemma simple_ind' (Q : elem -> Prop) :
    (forall e n ps rs, ekind e = PLAIN_INSTR -> Called e (Text.T n) -> In n single -> Typed src e ps rs -> WrittenOut e -> OwnParams src e ->
      (token e L_PAREN = None -> arguments e = []) -> Forall (fun a => token a L_PAREN <> None) (arguments e) ->
      Forall (fun a => Simple src a /\ Q a) (arguments e) -> Q e) -> (forall e, Block src e -> Q e) ->
    forall e, Simple src e -> Q e.
  Proof.
    intros H HB. fix F 2. intros e [e' n ps rs H1 H2 H3 H4 H5 H6 H7 H8 H9|e' B]; [|exact (HB e' B)]. apply (H e' n ps rs); auto.
    clear -F H9. induction H9 as [|a l Ha Hl IH]; constructor; [split; [exact Ha|exact (F a Ha)]|exact IH].
  Qed.
  Lemma forall_exists2 {A B} (P : A -> B -> Prop) l : Forall (fun a => exists b, P a b) l -> exists m, Forall2 P l m.
  Proof. induction 1 as [|a l (b & H) _ (m & IH)]; [now exists []|]. exists (b :: m). now constructor. Qed.

  Definition Fine : Prop :=
    forall e, InTree tree e -> is_node e = true -> ekind e = PLAIN_INSTR -> token e L_PAREN <> None -> FoldedFits src e.
  Lemma child_node e a : In a (children e) -> is_node a = true.
  Proof. unfold children. intros H. now apply filter_In in H. Qed.
  Lemma argument_node e a : In a (arguments e) -> is_node a = true.
  Proof.
    intros H. apply in_arguments in H as [H|(o & _ & E)]; [now apply (child_node e)|]. now apply (child_node o), inside_in.
  Qed.

  Lemma receives_all l : (forall o, In o l -> inside o <> None) ->
    forall rss, Forall2 (fun a rs => Yields src a (map OVal rs)) (flat_map (fun o => match inside o with Some i => [i] | None => [] end) l) rss ->
    Receives src l (map OVal (concat rss)).
  Proof.
    induction l as [|o l IH]; intros H rss HF; cbn [flat_map] in HF; [inversion HF; constructor|].
    destruct (inside o) as [i|] eqn:E; [|now destruct (H o (or_introl eq_refl))].
    cbn [app] in HF. inversion HF as [|? u ? rss' Y HF']; subst. cbn [concat]. rewrite map_app. apply Receives_instr with i; auto.
    apply IH; auto. intros x Hx. apply H. now right.
  Qed.
  Lemma fits_vals ps ts : Forall2 Fits (map OVal ps) (map OVal ts) -> ps = ts.
  Proof.
    revert ts. induction ps as [|p ps IH]; intros [|t ts] H; cbn [map] in H; inversion H; subst; auto. f_equal; auto.
  Qed.

  Lemma block_yields e : Block src e -> Yields src e [].
  Proof. intros B. right. split; [|reflexivity]. intros K. now destruct (block_kind e B). Qed.

  Lemma simple_valid : Fine -> forall e, Simple src e -> InTree tree e -> is_node e = true -> token e L_PAREN <> None ->
    exists x, Yields src e (map OVal (fst x)) /\ Unfolds e (snd x) /\ forall st, Valid src st (snd x) (st ++ fst x).
  Proof.
    intros HF. apply (simple_ind' (fun e => InTree tree e -> is_node e = true -> token e L_PAREN <> None ->
      exists x, Yields src e (map OVal (fst x)) /\ Unfolds e (snd x) /\ forall st, Valid src st (snd x) (st ++ fst x))).
    2: { intros e B _ _ _. destruct (block_valid e B) as (fl & U & V). exists ([], fl). cbn [fst snd map]. split; [now apply block_yields|].
         split; [exact U|]. intros st. rewrite app_nil_r. apply V. }
    intros e n ps rs K C Hn T W O _ Hp HI Te Ne Lp.
    assert (HI' : exists xs, Forall2 (fun a x => Yields src a (map OVal (fst x)) /\ Unfolds a (snd x) /\ forall st, Valid src st (snd x) (st ++ fst x)) (arguments e) xs).
    { apply forall_exists2. rewrite Forall_forall in *. intros a Ha. destruct (HI a Ha) as (_ & X). apply X; auto; [now apply (arguments_tree e)|now apply (argument_node e)]. }
    destruct HI' as (xs & HX).
    assert (F1 : Forall2 (fun a rs => Yields src a (map OVal rs)) (arguments e) (map fst xs)).
    { clear -HX. induction HX as [|a x l xs (H & _) _ IH]; constructor; auto. }
    assert (F2 : Forall2 Unfolds (arguments e) (map snd xs)).
    { clear -HX. induction HX as [|a x l xs (_ & H & _) _ IH]; constructor; auto. }
    assert (F3 : Forall2 (fun f rs => forall st, Valid src st f (st ++ rs)) (map snd xs) (map fst xs)).
    { clear -HX. induction HX as [|a x l xs (_ & _ & H) _ IH]; constructor; auto. }
    destruct W as (k & Hk & Hl & Hf & Hs).
    destruct (HF e Te Ne K Lp k Hk) as (_ & HT). cbv zeta in HT.
    pose proof (silent_count k _ Hl Hf Hs) as Hc. unfold silent in Hc. rewrite Hc in HT.
    assert (HR : Receives src (skipn k (childs e OPERAND)) (map OVal (concat (map fst xs)))).
    { apply receives_all; [exact Hs|]. rewrite <- arguments_split by exact Hf. rewrite <- (arguments_plain e K). exact F1. }
    destruct (single_known e n ps rs K C Hn T O) as (Y & TP).
    assert (Ty : Typed src e (concat (map fst xs)) rs).
    { destruct TP as [TP|(TP & -> & TD)].
      - destruct (HT _ _ TP HR) as (L & Fi). rewrite !map_length in *. assert (L' : length ps = length (concat (map fst xs))) by lia.
        replace (concat (map fst xs)) with ps; [exact T|]. apply fits_vals. apply fits_forall2; [now rewrite !map_length|exact Fi].
      - destruct (HT _ _ TP HR) as (L & _). rewrite map_length in L. cbn [length] in L.
        destruct (concat (map fst xs)) as [|t [|t' l]]; cbn [length] in L; try lia. apply TD. }
    exists (rs, concat (map snd xs) ++ [e]). cbn [fst snd]. split; [exact Y|]. split; [now constructor|].
    now apply (valid_fold e (map snd xs) (map fst xs) rs).
  Qed.

  Lemma map_app_vals (st : list valtype) : forall low args, map OVal st = low ++ args ->
    exists a b, st = a ++ b /\ low = map OVal a /\ args = map OVal b.
  Proof.
    induction st as [|t st IH]; intros low args H; cbn [map] in H.
    - symmetry in H. apply app_eq_nil in H as (-> & ->). now exists [], [].
    - destruct low as [|x low]; cbn [app] in H.
      + subst args. now exists [], (t :: st).
      + injection H as <- H. destruct (IH low args H) as (a & b & -> & -> & ->). now exists (t :: a), b.
  Qed.
  Lemma runs_valid : Fine -> forall l, (forall e, In e l -> InTree tree e /\ is_node e = true) -> Forall (Simple src) l ->
    forall st, Runs src (map OVal st) l -> exists st', ValidCode src st l st'.
  Proof.
    intros HF l. induction l as [|e l IH]; intros HT HS st HR.
    - exists st, []. split; constructor.
    - inversion HS as [|? ? S HS']; subst. destruct (HT e (or_introl eq_refl)) as (Te & Ne).
      assert (HT' : forall x, In x l -> InTree tree x /\ is_node x = true) by (intros x Hx; apply HT; now right).
      destruct (token e L_PAREN) as [lp|] eqn:Lp.
      + assert (Lp' : token e L_PAREN <> None) by congruence.
        destruct (simple_valid HF e S Te Ne Lp') as ((rs & fl) & Y & U & V). cbn [fst snd] in *.
        assert (HR' : Runs src (map OVal (st ++ rs)) l).
        { rewrite map_app. destruct S as [e n ps rs' K C Hn T W O _ _ _|e B].
          inversion HR as [|? ? ? N HR'|? ? ? _ N HR'|? ? ? P R _ _ _ Y' HR'|? ? ? ? P R _ N]; subst; try congruence.
          - exfalso. destruct (single_known e n ps rs' K C Hn T O) as (_ & [TP|(TP & _)]); now apply (N _ TP).
          - now rewrite (yields_fun src e _ _ Te Y Y').
          - pose proof (block_kind e B) as K. inversion HR as [|? ? ? N HR'|? ? ? N _ HR'|? ? ? P R N _ _ Y' HR'|? ? ? ? P R N]; subst; try congruence.
            now rewrite (yields_fun src e _ _ Te Y (block_yields e B)), app_nil_r. }
        destruct (IH HT' HS' (st ++ rs) HR') as (st' & ls & U' & V').
        exists st', (fl :: ls). split; [now constructor|]. cbn [concat]. eapply valid_app; [apply V|exact V'].
      + destruct S as [e n ps rs K C Hn T W O Na _ _|e B].
        2: { pose proof (block_kind e B) as K. destruct (block_valid e B) as (fl & U & V).
             inversion HR as [|? ? ? N HR'|? ? ? N _ HR'|? ? ? P R N _ _ Y' HR'|? ? ? ? P R N]; subst; try congruence.
             destruct (IH HT' HS' st HR') as (st' & ls & U' & V'). exists st', (fl :: ls). split; [now constructor|].
             cbn [concat]. eapply valid_app; [apply V|exact V']. }
        specialize (Na Lp).
        destruct (single_known e n ps rs K C Hn T O) as (Y & TP).
        inversion HR as [|? ? ? N HR'|? ? ? _ N HR'|? ? ? P R _ N|low args ? ? P R _ _ TP' Fi Y' HR' Eq]; subst; try congruence.
        { exfalso. destruct TP as [TP|(TP & _)]; now apply (N _ TP). }
        symmetry in Eq. destruct (map_app_vals st low args Eq) as (a & b & -> & -> & ->).
        rewrite (yields_fun src e _ _ Te Y' Y), <- map_app in HR'.
        destruct (IH HT' HS' (a ++ rs) HR') as (st' & ls & U' & V').
        exists st', ([e] :: ls). split.
        { constructor; [|exact U']. change [e] with (concat (@nil (list elem)) ++ [e]). constructor. rewrite Na. constructor. }
        cbn [concat app]. apply Valid_instr with rs; [|exact V'].
        destruct TP as [TP|(TP & -> & TD)]; rewrite (takes_fun src e _ _ Te TP' TP) in Fi.
        * apply fits_vals in Fi. now subst b.
        * inversion Fi as [|? ? ? ? _ Fi' E]; subst. inversion Fi'; subst. destruct b as [|t [|? ?]]; try discriminate. apply TD.
  Qed.
  Lemma all_valid : Fine -> forall l, (forall e, In e l -> InTree tree e /\ is_node e = true) -> Forall (Simple src) l -> (forall e, In e l -> token e L_PAREN <> None) ->
    forall st, exists st', ValidCode src st l st'.
  Proof.
    intros HF l. induction l as [|e l IH]; intros HT HS HP st.
    - exists st, []. split; constructor.
    - inversion HS as [|? ? S HS']; subst. destruct (HT e (or_introl eq_refl)) as (Te & Ne). destruct (simple_valid HF e S Te Ne (HP e (or_introl eq_refl))) as ((rs & fl) & Y & U & V). cbn [fst snd] in *.
      destruct (IH (fun x Hx => HT x (or_intror Hx)) HS' (fun x Hx => HP x (or_intror Hx)) (st ++ rs)) as (st' & ls & U' & V').
      exists st', (fl :: ls). split; [now constructor|]. cbn [concat]. eapply valid_app; [apply V|exact V'].
  Qed.

  (** Parenthesised instructions with exactly their own operands are valid. *)
  Lemma expr_valid : forall e rs, Expr src e rs -> exists fl, Unfolds e fl /\ forall st, Valid src st fl (st ++ rs).
  Proof.
    fix F 3. intros e rs [e' tss ps rs' K Lp T W O HF E].
    assert (X : exists ls, Forall2 Unfolds (arguments e') ls /\ Forall2 (fun f rs => forall st, Valid src st f (st ++ rs)) ls tss).
    { clear -F HF. induction HF as [|a u l tss Ea _ IH]; [exists []; split; constructor|].
      destruct (F a u Ea) as (fl & U & V). destruct IH as (ls & IH1 & IH2). exists (fl :: ls). split; constructor; auto. }
    destruct X as (ls & X1 & X2). exists (concat ls ++ [e']). split; [now constructor|]. subst ps. now apply valid_fold with tss.
  Qed.
  Lemma unfolds_plain e : arguments e = [] -> Unfolds e [e].
  Proof. intros H. change [e] with (concat (@nil (list elem)) ++ [e]). constructor. rewrite H. constructor. Qed.
End Doc.

(** ** Statements *)

(** Code with exact operands is valid code. *)
Theorem C56_line_valid src st l st' : Line src st l st' -> (forall e, In e l -> token e L_PAREN = None -> arguments e = []) ->
  ValidCode src st l st'.
Proof.
  induction 1 as [st|st e rs l st' E H IH|low ps rs e l st' K Lp T O H IH|st e l st' B H IH]; intros Na.
  - exists []. split; constructor.
  - destruct IH as (ls & U & V); [intros x Hx; apply Na; now right|]. destruct (expr_valid src e rs E) as (fl & U' & V').
    exists (fl :: ls). split; [now constructor|]. cbn [concat]. eapply valid_app; [apply V'|exact V].
  - destruct IH as (ls & U & V); [intros x Hx; apply Na; now right|].
    exists ([e] :: ls). split; [constructor; [apply unfolds_plain, Na; auto; now left|exact U]|]. cbn [concat app]. now apply Valid_instr with rs.
  - destruct IH as (ls & U & V); [intros x Hx; apply Na; now right|]. destruct (block_valid src e B) as (fl & U' & V').
    exists (fl :: ls). split; [now constructor|]. cbn [concat]. eapply valid_app; [apply V'|exact V].
Qed.
Print Assumptions C56_line_valid.

(** Well-typed code gets no type diagnostic: when every parenthesised
    instruction of a document has exactly the operands it takes, or has no type
    of its own, and every function body and global value that has an
    unparenthesised instruction is valid code of such instructions and of
    blocks that take and give nothing. *)
Theorem C56_accepts src ds : check src = Ans ds ->
  (forall e, InTree (tree_of src) e -> is_node e = true -> ekind e = PLAIN_INSTR -> token e L_PAREN <> None ->
     (exists rs, Expr src e rs) \/ Untyped e) ->
  (forall f, InTree (tree_of src) f -> is_node f = true -> In (ekind f) [MODULE_FIELD_FUNC; MODULE_FIELD_GLOBAL] ->
     (exists e, In e (body f) /\ token e L_PAREN = None) -> exists st, Line src [] (body f) st) ->
  forall d, In d ds -> ~ TypeMsg (d_message d).
Proof.
  intros C HE HL. apply (C29_exact src ds C). split.
  - intros e T N K Lp. destruct (HE e T N K Lp) as [(rs & E)|U]; [eapply expr_fits; eauto|].
    assert (NR : forall x m, Called e x -> ~ Row x m).
    { intros x m Cx (s & Hs & <-). apply (U _ Cx). apply in_map.
      destruct (proj1 (C51_types (Text.T s) (map (fun o => match o with OVal v => Some v | OGeneric => None end) (m_params m))
                        (map (fun o => match o with OVal v => Some v | OGeneric => None end) (m_results m)))) as (n & Hn & E).
      { exists m. split; [now exists s|]. rewrite !map_map. split.
        all: match goal with |- ?l = _ => rewrite <- (map_id l) at 1 end; apply map_ext; now intros []. }
      apply T_inj in E. subst n. unfold typed in Hn. apply in_or_app. right. apply in_or_app.
      apply in_app_or in Hn as [Hn|Hn]; [right|left].
      - apply in_map_iff in Hn as (((n & ps) & rs) & E & Hn). injection E as -> _ _. apply in_map_iff. now exists (s, ps, rs).
      - apply in_map_iff. eexists. split; [|exact Hn]. reflexivity. }
    assert (NC : ~ Called e (Text.T "call")). { intros Cx. apply (U _ Cx). now left. }
    intros k Hk args. split; [intros (x & m & Cx & Rx); now destruct (NR x m Cx)|].
    intros ps ts [o f ps' rs Cx|x m Cx _ Rx]; [now destruct NC|now destruct (NR x m Cx)].
  - intros f T N K X. destruct (HL f T N K X) as (st & L). apply (line_runs src [] (body f) st L). constructor.
Qed.
Print Assumptions C56_accepts.

Lemma body_tree src f : InTree (tree_of src) f -> forall e, In e (body f) -> InTree (tree_of src) e /\ is_node e = true.
Proof.
  unfold body. intros T e H. apply filter_In in H as (H & _). split; [eapply in_tree_child; eauto|eapply child_node; eauto].
Qed.
(** A function body or global value without type diagnostics is well typed:
    when its instructions have one type each, or are [drop], and its blocks
    take and give nothing and are well typed by themselves. *)
Theorem C56_sound src ds f : check src = Ans ds -> (forall d, In d ds -> ~ TypeMsg (d_message d)) ->
  InTree (tree_of src) f -> is_node f = true -> In (ekind f) [MODULE_FIELD_FUNC; MODULE_FIELD_GLOBAL] -> Forall (Simple src) (body f) ->
  exists st, ValidCode src [] (body f) st.
Proof.
  intros C D T N K S. apply (C29_exact src ds C) in D as (D1 & D2).
  destruct (existsb (fun e => match token e L_PAREN with None => true | Some _ => false end) (body f)) eqn:X.
  - apply existsb_exists in X as (e & He & X). apply (runs_valid src D1 (body f) (body_tree src f T) S []).
    apply D2; auto. exists e. split; [exact He|]. now destruct (token e L_PAREN).
  - apply (all_valid src D1 (body f) (body_tree src f T) S). intros e He E. apply not_true_iff_false in X. apply X.
    apply existsb_exists. exists e. now rewrite E.
Qed.
Print Assumptions C56_sound.
(** So is every parenthesised instruction, wherever it is. *)
Theorem C56_sound_folded src ds e : check src = Ans ds -> (forall d, In d ds -> ~ TypeMsg (d_message d)) ->
  InTree (tree_of src) e -> is_node e = true -> token e L_PAREN <> None -> Simple src e ->
  exists rs, forall st, ValidCode src st [e] (st ++ rs).
Proof.
  intros C D T N Lp S. apply (C29_exact src ds C) in D as (D1 & _).
  destruct (simple_valid src D1 e S T N Lp) as ((rs & fl) & _ & U & V). cbn [fst snd] in *. exists rs. intros st. exists [fl].
  split; [repeat constructor; exact U|]. cbn [concat]. rewrite app_nil_r. apply V.
Qed.
Print Assumptions C56_sound_folded.

(** ** Where the two differ *)

Lemma typed_sig src e n ps rs ps' rs' : Called e (Text.T n) -> In (n, ps, rs) signatures -> Typed src e ps' rs' -> ps' = ps /\ rs' = rs.
Proof.
  intros C Hi T. pose proof (sig_not_special n ps rs Hi) as Ns.
  assert (Sp : forall n', Called e (Text.T n') -> ~ In n' special) by (intros n' C'; now rewrite (called_inj e n' n C' C)).
  destruct T as [n' ps' rs' C' Hi'|o f ps' rs' C'|t C'|t C'|t C'|t C'|t C'|t C'|t C'];
    try (exfalso; refine (Sp _ C' _); cbn; auto 15; fail).
  rewrite (called_inj e n' n C' C) in *. destruct (C51_types_unique (Text.T n) (map Some ps') (map Some rs') (map Some ps) (map Some rs)) as (A & B).
  { apply C51_types; exists n; split; [|reflexivity]; unfold typed; apply in_or_app; left; apply in_map_iff. now exists (n, ps', rs'). }
  { apply C51_types; exists n; split; [|reflexivity]; unfold typed; apply in_or_app; left; apply in_map_iff. now exists (n, ps, rs). }
  assert (J : forall a b : list valtype, map Some a = map Some b -> a = b).
  { induction a as [|x a IH]; intros [|y b] E; cbn in E; try discriminate; [reflexivity|]. injection E as -> E. f_equal. now apply IH. }
  split; now apply J.
Qed.

(** Deciding the conditions for instructions with a type by name and [drop]. *)
Definition name_text (e : elem) : text := match token e INSTR_NAME with Some t => etext t | None => [] end.
Definition sig_of (x : text) : option (string * list valtype * list valtype) := find (fun s => text_eqb x (Text.T (fst (fst s)))) signatures.
Definition written_b (e : elem) : bool :=
  match meta_of (name_text e) with
  | Some m =>
      let k := m_operands_count m in
      (k <=? length (childs e OPERAND)) && forallb silent (firstn k (childs e OPERAND)) && forallb (fun o => negb (silent o)) (skipn k (childs e OPERAND))
  | None => false
  end.
Definition named (e : elem) : bool := match token e INSTR_NAME with Some _ => true | None => false end.
Definition paren (e : elem) : bool := match token e L_PAREN with Some _ => true | None => false end.
Lemma name_called e : named e = true -> Called e (name_text e).
Proof. unfold named, name_text, Called. destruct (token e INSTR_NAME) as [t|]; [eauto|discriminate]. Qed.
Lemma no_call_row m : ~ Row (Text.T "call") m.
Proof. intros R. apply meta_row in R. vm_compute in R. discriminate. Qed.
Lemma written_b_ok e : named e = true -> written_b e = true -> WrittenOut e /\ name_text e <> Text.T "call".
Proof.
  intros N W. apply name_called in N. unfold written_b in W. destruct (meta_of (name_text e)) as [m|] eqn:M; [|discriminate].
  apply meta_row in M. apply andb_prop in W as (W & W3). apply andb_prop in W as (W1 & W2). apply Nat.leb_le in W1. rewrite forallb_forall in W2, W3.
  assert (NC : name_text e <> Text.T "call") by (intros E; rewrite E in M; exact (no_call_row m M)). split; [|exact NC].
  exists (m_operands_count m). split; [right; left; eauto 10|]. split; [exact W1|]. split.
  - intros o Ho. apply W2 in Ho. unfold silent in Ho. now destruct (inside o).
  - intros o Ho. apply W3 in Ho. unfold silent in Ho. now destruct (inside o).
Qed.
Lemma own_b e src : named e = true -> name_text e <> Text.T "call" -> OwnParams src e.
Proof. intros N E o f ps rs C. exfalso. apply E. exact (called_fun e _ _ (name_called e N) C). Qed.
Lemma sig_of_ok e s : named e = true -> sig_of (name_text e) = Some s -> Called e (Text.T (fst (fst s))) /\ In s signatures.
Proof.
  intros N E. unfold sig_of in E. apply find_some in E as (E1 & E2). apply text_eqb_eq in E2. split; [|exact E1]. rewrite <- E2. now apply name_called.
Qed.

Fixpoint simple_b (n : nat) (e : elem) : bool :=
  match n with
  | 0 => false
  | S n =>
      kind_eqb (ekind e) PLAIN_INSTR && named e && written_b e
      && (text_eqb (name_text e) (Text.T "drop") || match sig_of (name_text e) with Some _ => true | None => false end)
      && (paren e || match arguments e with [] => true | _ => false end)
      && forallb (fun a => paren a && simple_b n a) (arguments e)
  end.
Lemma simple_b_ok src n : forall e, simple_b n e = true -> Simple src e.
Proof.
  induction n as [|n IH]; intros e H; [discriminate|]. cbn [simple_b] in H.
  apply andb_prop in H as (H & H6). apply andb_prop in H as (H & H5). apply andb_prop in H as (H & H4).
  apply andb_prop in H as (H & H3). apply andb_prop in H as (H1 & H2). apply kind_eqb_eq in H1.
  destruct (written_b_ok e H2 H3) as (W & NC). rewrite forallb_forall in H6.
  assert (T : exists m ps rs, Called e (Text.T m) /\ In m single /\ Typed src e ps rs).
  { apply orb_prop in H4 as [H4|H4].
    - apply text_eqb_eq in H4. pose proof (name_called e H2) as C. rewrite H4 in C. exists "drop"%string, [VI32], [].
      split; [exact C|]. split; [cbn; auto|]. now apply Ty_drop.
    - destruct (sig_of (name_text e)) as [((m & ps) & rs)|] eqn:E; [|discriminate]. destruct (sig_of_ok e _ H2 E) as (C & Hi). cbn [fst] in C.
      exists m, ps, rs. split; [exact C|]. split; [|now apply Ty_name with m].
      unfold single. apply in_or_app. right. apply in_map_iff. now exists (m, ps, rs). }
  destruct T as (m & ps & rs & C & Hs & T). apply Simple_i with m ps rs; auto.
  - now apply own_b.
  - intros L. unfold paren in H5. rewrite L in H5. cbn [orb] in H5. now destruct (arguments e).
  - apply Forall_forall. intros a Ha. apply H6 in Ha. apply andb_prop in Ha as (Ha & _). unfold paren in Ha. now destruct (token a L_PAREN).
  - apply Forall_forall. intros a Ha. apply H6 in Ha. apply andb_prop in Ha as (_ & Ha). auto.
Qed.

(** A function without type diagnostics that meets the conditions of
    [C56_sound]: five instructions, one with two others in it. *)
Definition ex_valid : text :=
  Text.T "(module (func f64.const 1 f64.neg drop (drop (i32.add (i32.const 1) (i32.eqz (i32.const 2)))) i64.const 3))".
Example C56_example : exists f, InTree (tree_of ex_valid) f /\ is_node f = true /\ ekind f = MODULE_FIELD_FUNC
  /\ length (body f) = 5 /\ Forall (Simple ex_valid) (body f) /\ report ex_valid = Some [].
Proof.
  assert (F : existsb (fun e => kind_eqb (ekind e) MODULE_FIELD_FUNC && Nat.eqb (length (body e)) 5 && forallb (simple_b 5) (body e))
    (descendants (root_of (tree_of ex_valid))) = true) by (vm_compute; reflexivity).
  apply node_exists in F as (f & F1 & F3 & F2). apply andb_prop in F2 as [F2 B].
  apply andb_prop in F2 as [F2 F4]. apply kind_eqb_eq in F2. apply Nat.eqb_eq in F4. exists f. repeat (split; [assumption|]).
  split; [|vm_compute; reflexivity]. apply Forall_forall. intros e He. rewrite forallb_forall in B. now apply (simple_b_ok ex_valid 5), B.
Qed.

(** Computing types. *)
Fixpoint all_some {A} (l : list (option A)) : option (list A) :=
  match l with
  | [] => Some []
  | Some x :: r => match all_some r with Some y => Some (x :: y) | None => None end
  | None :: _ => None
  end.
Fixpoint flat (n : nat) (e : elem) : option (list elem) :=
  match n with
  | 0 => None
  | S n => match all_some (map (flat n) (arguments e)) with Some ls => Some (concat ls ++ [e]) | None => None end
  end.
Lemma all_some_ok {A B} (f : A -> option B) l : forall m, all_some (map f l) = Some m -> Forall2 (fun a b => f a = Some b) l m.
Proof.
  induction l as [|a l IH]; intros m H; cbn [map all_some] in H; [injection H as <-; constructor|].
  destruct (f a) as [b|] eqn:E; [|discriminate]. destruct (all_some (map f l)) as [r|]; [|discriminate]. injection H as <-. constructor; auto.
Qed.
Lemma flat_ok n : forall e l, flat n e = Some l -> Unfolds e l /\ forall l', Unfolds e l' -> l' = l.
Proof.
  induction n as [|n IH]; intros e l H; [discriminate|]. cbn [flat] in H.
  destruct (all_some (map (flat n) (arguments e))) as [ls|] eqn:E; [|discriminate]. injection H as <-. apply all_some_ok in E. split.
  - constructor. clear -E IH. induction E as [|a b l m H _ IHE]; constructor; auto. now apply IH in H.
  - intros l' U. destruct U as [e ls' U]. f_equal. f_equal. clear -E U IH. revert ls' U.
    induction E as [|a b l m H _ IHE]; intros ls' U; inversion U; subst; [reflexivity|]. f_equal; [|now apply IHE]. apply IH in H as (_ & H). auto.
Qed.
Lemma flats_ok n l ls : all_some (map (flat n) l) = Some ls -> Forall2 Unfolds l ls /\ forall ls', Forall2 Unfolds l ls' -> ls' = ls.
Proof.
  intros E. apply all_some_ok in E. split.
  - induction E as [|a b l m H _ IH]; constructor; auto. now apply flat_ok in H.
  - induction E as [|a b l m H _ IH]; intros ls' U; inversion U; subst; [reflexivity|]. f_equal; [|now apply IH]. apply flat_ok in H as (_ & H). auto.
Qed.
Definition vals_eqb (a b : list valtype) : bool := ops_eqb (map OVal a) (map OVal b).
Lemma vals_eqb_ok a b : vals_eqb a b = true -> a = b.
Proof.
  unfold vals_eqb. intros H. apply ops_eqb_ok in H. revert b H. induction a as [|x a IH]; intros [|y b] H; cbn [map] in H; try discriminate; [reflexivity|].
  injection H as -> H. f_equal. auto.
Qed.
(** Taking [ps] off the stack. *)
Definition pop (st ps : list valtype) : option (list valtype) :=
  let n := length st - length ps in if vals_eqb (skipn n st) ps then Some (firstn n st) else None.
Lemma pop_ok st ps low : pop st ps = Some low -> st = low ++ ps.
Proof. unfold pop. destruct (vals_eqb _ ps) eqn:E; [|discriminate]. intros H. injection H as <-. apply vals_eqb_ok in E. rewrite <- (firstn_skipn (length st - length ps) st) at 1. now rewrite E. Qed.
Definition step (st : list valtype) (e : elem) : option (list valtype) :=
  if negb (named e) then None
  else if text_eqb (name_text e) (Text.T "drop") then match rev st with t :: r => Some (rev r) | [] => None end
  else match sig_of (name_text e) with
       | Some (_, ps, rs) => match pop st ps with Some low => Some (low ++ rs) | None => None end
       | None => None
       end.
Lemma step_ok src st e st' : step st e = Some st' -> exists low ps rs, st = low ++ ps /\ st' = low ++ rs /\ Typed src e ps rs.
Proof.
  unfold step. destruct (named e) eqn:N; cbn [negb]; [|discriminate]. destruct (text_eqb (name_text e) (Text.T "drop")) eqn:D.
  - apply text_eqb_eq in D. pose proof (name_called e N) as C. rewrite D in C. destruct (rev st) as [|t r] eqn:R; [discriminate|].
    intros H. injection H as <-. exists (rev r), [t], []. split; [|split; [now rewrite app_nil_r|now apply Ty_drop]].
    rewrite <- (rev_involutive st), R. reflexivity.
  - destruct (sig_of (name_text e)) as [((n & ps) & rs)|] eqn:E; [|discriminate]. destruct (pop st ps) as [low|] eqn:P; [|discriminate].
    intros H. injection H as <-. destruct (sig_of_ok e _ N E) as (C & Hi). exists low, ps, rs. split; [now apply pop_ok|]. split; [reflexivity|]. now apply Ty_name with n.
Qed.
Fixpoint run (st : list valtype) (l : list elem) : option (list valtype) :=
  match l with [] => Some st | e :: l => match step st e with Some st' => run st' l | None => None end end.
Lemma run_ok src l : forall st st', run st l = Some st' -> Valid src st l st'.
Proof.
  induction l as [|e l IH]; intros st st' H; cbn [run] in H; [injection H as <-; constructor|].
  destruct (step st e) as [st1|] eqn:E; [|discriminate]. destruct (step_ok src _ _ _ E) as (low & ps & rs & -> & -> & T). apply Valid_instr with rs; auto.
Qed.
Fixpoint expr_of (n : nat) (e : elem) : option (list valtype) :=
  match n with
  | 0 => None
  | S n =>
      if kind_eqb (ekind e) PLAIN_INSTR && named e && written_b e && paren e
      then match all_some (map (expr_of n) (arguments e)) with
           | Some tss => match step (concat tss) e with
                         | Some st => if (length (concat tss) <=? match sig_of (name_text e) with Some (_, ps, _) => length ps | None => 1 end) then Some st else None
                         | None => None end
           | None => None
           end
      else None
  end.
Lemma step_exact src st e st' : step st e = Some st' -> length st <= match sig_of (name_text e) with Some (_, ps, _) => length ps | None => 1 end ->
  text_eqb (name_text e) (Text.T "drop") = true /\ sig_of (name_text e) <> None \/ Typed src e st st'.
Proof.
  unfold step. destruct (named e) eqn:N; cbn [negb]; [|discriminate]. destruct (text_eqb (name_text e) (Text.T "drop")) eqn:D.
  - destruct (sig_of (name_text e)) eqn:E; [left; split; [reflexivity|discriminate]|]. intros H L. right.
    apply text_eqb_eq in D. pose proof (name_called e N) as C. rewrite D in C. destruct (rev st) as [|t r] eqn:R; [discriminate|]. injection H as <-.
    assert (Hr : r = []). { apply (f_equal (@length _)) in R. rewrite rev_length in R. cbn [length] in R. destruct r; [reflexivity|cbn [length] in R; lia]. }
    subst r. rewrite <- (rev_involutive st), R. now apply Ty_drop.
  - destruct (sig_of (name_text e)) as [((n & ps) & rs)|] eqn:E; [|discriminate]. destruct (pop st ps) as [low|] eqn:P; [|discriminate].
    intros H L. injection H as <-. right. destruct (sig_of_ok e _ N E) as (C & Hi). apply pop_ok in P. subst st. rewrite app_length in L.
    destruct low; [|cbn [length] in L; lia]. now apply Ty_name with n.
Qed.
Lemma drop_no_sig : sig_of (Text.T "drop") = None.
Proof. vm_compute. reflexivity. Qed.
Lemma expr_of_ok src n : forall e rs, expr_of n e = Some rs -> Expr src e rs.
Proof.
  induction n as [|n IH]; intros e rs H; [discriminate|]. cbn [expr_of] in H.
  destruct (kind_eqb (ekind e) PLAIN_INSTR && named e && written_b e && paren e) eqn:B; [|discriminate].
  apply andb_prop in B as (B & B4). apply andb_prop in B as (B & B3). apply andb_prop in B as (B1 & B2). apply kind_eqb_eq in B1.
  destruct (all_some (map (expr_of n) (arguments e))) as [tss|] eqn:A; [|discriminate]. destruct (step (concat tss) e) as [st|] eqn:S; [|discriminate].
  destruct (_ <=? _) eqn:L; [|discriminate]. injection H as ->. apply Nat.leb_le in L. destruct (written_b_ok e B2 B3) as (W & NC).
  destruct (step_exact src _ _ _ S L) as [(D & X)|T]; [exfalso; apply text_eqb_eq in D; rewrite D in X; exact (X drop_no_sig)|].
  apply Expr_i with tss (concat tss); auto; [unfold paren in B4; now destruct (token e L_PAREN)|now apply own_b|].
  apply all_some_ok in A. clear -A IH. induction A as [|a b l m H _ IHA]; constructor; auto.
Qed.
(** Blocks. *)
Definition code_of (n : nat) (st : list valtype) (l : list elem) : option (list valtype) :=
  match all_some (map (flat n) l) with Some ls => run st (concat ls) | None => None end.
Lemma code_of_ok src n st l st' : code_of n st l = Some st' -> ValidCode src st l st'.
Proof.
  unfold code_of. destruct (all_some (map (flat n) l)) as [ls|] eqn:E; [|discriminate]. intros H. apply flats_ok in E as (E & _).
  exists ls. split; [exact E|now apply run_ok].
Qed.
Definition gives (o : option (list valtype)) (ts : list valtype) : bool := match o with Some st => vals_eqb st ts | None => false end.
Lemma gives_ok o ts : gives o ts = true -> o = Some ts.
Proof. destruct o as [st|]; [|discriminate]. intros H. apply vals_eqb_ok in H. now subst. Qed.
Definition block_b (n : nat) (e : elem) : bool :=
  match child e BLOCK_TYPE with
  | Some _ => false
  | None =>
      (kind_eqb (ekind e) BLOCK_BLOCK || kind_eqb (ekind e) BLOCK_LOOP) && gives (code_of n [] (body e)) []
      || kind_eqb (ekind e) BLOCK_IF && gives (code_of n [] (body e)) [VI32]
         && gives (code_of n [] (branch e BLOCK_IF_THEN)) [] && gives (code_of n [] (branch e BLOCK_IF_ELSE)) []
  end.
Lemma block_b_ok src n e : block_b n e = true -> Block src e.
Proof.
  unfold block_b, Block, BlockType. destruct (child e BLOCK_TYPE); [discriminate|]. intros H. split; [reflexivity|].
  apply orb_prop in H as [H|H].
  - apply andb_prop in H as (H1 & H2). left. apply gives_ok, (code_of_ok src) in H2. split; [|exact H2].
    apply orb_prop in H1 as [H1|H1]; apply kind_eqb_eq in H1; rewrite H1; cbn; auto.
  - apply andb_prop in H as (H & H4). apply andb_prop in H as (H & H3). apply andb_prop in H as (H1 & H2). right.
    apply kind_eqb_eq in H1. apply gives_ok, (code_of_ok src) in H2, H3, H4. auto.
Qed.
Fixpoint line_of (n : nat) (st : list valtype) (l : list elem) : option (list valtype) :=
  match l with
  | [] => Some st
  | e :: l =>
      if block_b n e then line_of n st l
      else if paren e then match expr_of n e with Some rs => line_of n (st ++ rs) l | None => None end
      else if kind_eqb (ekind e) PLAIN_INSTR && negb (text_eqb (name_text e) (Text.T "call")) then
        match step st e with Some st' => line_of n st' l | None => None end
      else None
  end.
Lemma line_of_ok src n l : forall st st', line_of n st l = Some st' -> Line src st l st'.
Proof.
  induction l as [|e l IH]; intros st st' H; cbn [line_of] in H; [injection H as <-; constructor|].
  destruct (block_b n e) eqn:B; [apply Line_block; [now apply (block_b_ok src n)|auto]|]. destruct (paren e) eqn:P.
  - destruct (expr_of n e) as [rs|] eqn:E; [|discriminate]. apply Line_expr with rs; [now apply (expr_of_ok src n)|auto].
  - destruct (kind_eqb (ekind e) PLAIN_INSTR && negb (text_eqb (name_text e) (Text.T "call"))) eqn:K; [|discriminate].
    apply andb_prop in K as (K & NC). apply kind_eqb_eq in K. apply negb_true_iff in NC.
    destruct (step st e) as [st1|] eqn:S; [|discriminate]. destruct (step_ok src _ _ _ S) as (low & ps & rs & -> & -> & T).
    apply Line_plain with rs; auto; [unfold paren in P; now destruct (token e L_PAREN)|].
    apply own_b; [|intros E; rewrite E, text_eqb_refl in NC; discriminate].
    unfold step in S. destruct (named e); [reflexivity|discriminate].
Qed.

(** Computing the conditions of [C56_accepts]. *)
Definition accepts_b (src : text) : bool :=
  forallb (fun e => negb (kind_eqb (ekind e) PLAIN_INSTR && paren e) || match expr_of 5 e with Some _ => true | None => false end)
    (descendants (root_of (tree_of src)))
  && forallb (fun e => negb (kind_eqb (ekind e) MODULE_FIELD_FUNC || kind_eqb (ekind e) MODULE_FIELD_GLOBAL)
      || match line_of 5 [] (body e) with Some _ => true | None => false end)
    (descendants (root_of (tree_of src))).
Lemma accepts_b_ok src : accepts_b src = true ->
  (forall e, InTree (tree_of src) e -> is_node e = true -> ekind e = PLAIN_INSTR -> token e L_PAREN <> None ->
     (exists rs, Expr src e rs) \/ Untyped e)
  /\ (forall f, InTree (tree_of src) f -> is_node f = true -> In (ekind f) [MODULE_FIELD_FUNC; MODULE_FIELD_GLOBAL] ->
     (exists e, In e (body f) /\ token e L_PAREN = None) -> exists st, Line src [] (body f) st).
Proof.
  intros H. apply andb_prop in H as (A & B).
  rewrite forallb_forall in A, B. split.
  - intros e T N K L. assert (D : In e (descendants (root_of (tree_of src)))) by (apply in_descendants; auto). apply A in D.
    rewrite K in D. unfold paren in D. destruct (token e L_PAREN); [|congruence]. cbn [kind_eqb negb orb andb] in D. left.
    destruct (expr_of 5 e) as [rs|] eqn:E; [|discriminate D]. exists rs. now apply (expr_of_ok _ 5).
  - intros f T N K _. assert (D : In f (descendants (root_of (tree_of src)))) by (apply in_descendants; auto). apply B in D.
    destruct (line_of 5 [] (body f)) as [st|] eqn:E; [exists st; now apply (line_of_ok _ 5)|].
    destruct K as [K|[K|[]]]; rewrite <- K in D; discriminate D.
Qed.

(** [ex_valid] meets the conditions of [C56_accepts]. *)
Example C56_accepts_example :
  (forall e, InTree (tree_of ex_valid) e -> is_node e = true -> ekind e = PLAIN_INSTR -> token e L_PAREN <> None ->
     (exists rs, Expr ex_valid e rs) \/ Untyped e)
  /\ (forall f, InTree (tree_of ex_valid) f -> is_node f = true -> In (ekind f) [MODULE_FIELD_FUNC; MODULE_FIELD_GLOBAL] ->
     (exists e, In e (body f) /\ token e L_PAREN = None) -> exists st, Line ex_valid [] (body f) st).
Proof. apply accepts_b_ok. vm_compute. reflexivity. Qed.
(** So does a function with blocks, which meets those of [C56_sound] too. *)
Definition ex_block : text :=
  Text.T "(module (func block i32.const 1 drop end i32.const 2 (if (i32.const 3) (then (drop (i32.const 4))) (else (drop (i64.const 6)))) drop (loop (drop (f32.const 5)))))".
Example C56_block_example :
  ((forall e, InTree (tree_of ex_block) e -> is_node e = true -> ekind e = PLAIN_INSTR -> token e L_PAREN <> None ->
     (exists rs, Expr ex_block e rs) \/ Untyped e)
   /\ (forall f, InTree (tree_of ex_block) f -> is_node f = true -> In (ekind f) [MODULE_FIELD_FUNC; MODULE_FIELD_GLOBAL] ->
     (exists e, In e (body f) /\ token e L_PAREN = None) -> exists st, Line ex_block [] (body f) st))
  /\ report ex_block = Some []
  /\ exists f, InTree (tree_of ex_block) f /\ is_node f = true /\ ekind f = MODULE_FIELD_FUNC /\ length (body f) = 5 /\ Forall (Simple ex_block) (body f).
Proof.
  split; [apply accepts_b_ok; vm_compute; reflexivity|]. split; [vm_compute; reflexivity|].
  assert (F : existsb (fun e => kind_eqb (ekind e) MODULE_FIELD_FUNC && (Nat.eqb (length (body e)) 5 && forallb (fun x => block_b 5 x || simple_b 5 x) (body e)))
    (descendants (root_of (tree_of ex_block))) = true) by (vm_compute; reflexivity).
  apply node_exists in F as (f & F1 & F3 & F2). apply andb_prop in F2 as [F2 B]. apply andb_prop in B as [L B]. apply kind_eqb_eq in F2. apply Nat.eqb_eq in L.
  exists f. repeat (split; [assumption|]). apply Forall_forall. intros e He. rewrite forallb_forall in B. apply B in He.
  apply orb_prop in He as [He|He]; [apply Simple_block; now apply (block_b_ok _ 5)|now apply (simple_b_ok _ 5)].
Qed.

(** Well-typed code in general is reported: here an instruction takes its first
    operand from the stack. *)
Definition ex_stack : text := Text.T "(module (func i32.const 1 (i32.add (i32.const 2)) drop))".
Theorem C56_accepts_refuted : exists f, InTree (tree_of ex_stack) f /\ is_node f = true /\ ekind f = MODULE_FIELD_FUNC
  /\ ValidCode ex_stack [] (body f) [] /\ report ex_stack <> Some [].
Proof.
  assert (F : existsb (fun e => kind_eqb (ekind e) MODULE_FIELD_FUNC
      && match all_some (map (flat 5) (body e)) with Some ls => match run [] (concat ls) with Some [] => true | _ => false end | None => false end)
    (descendants (root_of (tree_of ex_stack))) = true) by (vm_compute; reflexivity).
  apply node_exists in F as (f & F1 & F3 & F2). apply andb_prop in F2 as [F2 B]. apply kind_eqb_eq in F2. exists f. repeat (split; [assumption|]).
  split; [|vm_compute; discriminate]. destruct (all_some (map (flat 5) (body f))) as [ls|] eqn:E; [|discriminate].
  destruct (run [] (concat ls)) as [[|]|] eqn:R; try discriminate. exists ls. apply flats_ok in E as (E & _). split; [exact E|now apply run_ok].
Qed.
Print Assumptions C56_accepts_refuted.

(** Wrong code may be accepted: the type that [select] gives is not known to
    the checker, nor is the type that [local.set] takes. *)
Definition ex_select : text := Text.T "(module (func (drop (i64.add (select 0 (i32.const 1) (i32.const 2) (i32.const 3)) (i64.const 4)))))".
Definition calls (l : list elem) : list text := map name_text l.
Lemma app_last2 {A} (low : list A) a b c d : low ++ [a; b] = [c; d] -> a = c /\ b = d /\ low = [].
Proof. destruct low as [|x [|y low]]; cbn [app]; intros H; [injection H as -> ->; auto|..]; exfalso; apply (f_equal (@length _)) in H; cbn [length] in H; rewrite ?app_length in H; cbn [length] in H; lia. Qed.
Lemma valid_plain src st e l st' n : Valid src st (e :: l) st' -> ekind e = PLAIN_INSTR -> Called e (Text.T n) -> n <> "unreachable"%string ->
  exists low ps rs, st = low ++ ps /\ Typed src e ps rs /\ Valid src (low ++ rs) l st'.
Proof.
  intros V K C N. inversion V as [|low ps' rs' e' l' st'' T V'|? ? ? ? ? C'|? ? ? ? ? ? K'|? ? ? ? ? ? ? K']; subst; eauto 10.
  - now destruct N; apply (called_inj e).
  - rewrite K in K'. destruct K' as [K'|[K'|[]]]; discriminate K'.
  - rewrite K in K'. discriminate K'.
Qed.
Lemma valid_sig src st e l st' n ps rs : Valid src st (e :: l) st' -> ekind e = PLAIN_INSTR -> Called e (Text.T n) -> In (n, ps, rs) signatures ->
  exists low, st = low ++ ps /\ Valid src (low ++ rs) l st'.
Proof.
  intros V K C Hi. destruct (valid_plain src st e l st' n V K C) as (low & ps' & rs' & -> & T & V').
  { intros ->. apply (sig_not_special _ _ _ Hi). cbn. auto 12. }
  destruct (typed_sig src e n ps rs ps' rs' C Hi T) as (-> & ->). eauto.
Qed.
Theorem C56_sound_refuted :
  (exists f, InTree (tree_of ex_select) f /\ is_node f = true /\ ekind f = MODULE_FIELD_FUNC
     /\ report ex_select = Some [] /\ ~ exists st, ValidCode ex_select [] (body f) st)
  /\ report (Text.T "(module (func (local i32) (local.set 0 (i64.const 0))))") = Some [].
Proof.
  split; [|vm_compute; reflexivity].
  set (names := map Text.T ["i32.const"; "i32.const"; "i32.const"; "select"; "i64.const"; "i64.add"; "drop"]%string).
  assert (F : existsb (fun e => kind_eqb (ekind e) MODULE_FIELD_FUNC
      && match all_some (map (flat 5) (body e)) with Some ls => forallb (fun e => named e && kind_eqb (ekind e) PLAIN_INSTR) (concat ls) && forallb (fun p => text_eqb (fst p) (snd p)) (combine (calls (concat ls)) names) && Nat.eqb (length (concat ls)) 7 | None => false end)
    (descendants (root_of (tree_of ex_select))) = true) by (vm_compute; reflexivity).
  apply node_exists in F as (f & F1 & F3 & F2). apply andb_prop in F2 as [F2 B]. apply kind_eqb_eq in F2. exists f. repeat (split; [assumption|]).
  split; [vm_compute; reflexivity|]. destruct (all_some (map (flat 5) (body f))) as [ls|] eqn:E; [|discriminate].
  intros (st & ls' & U & V). apply flats_ok in E as (_ & E). rewrite (E ls' U) in V. clear E U ls'.
  apply andb_prop in B as (B & B3). apply andb_prop in B as (B1 & B2). apply Nat.eqb_eq in B3.
  destruct (concat ls) as [|e1 [|e2 [|e3 [|e4 [|e5 [|e6 [|e7 [|]]]]]]]]; try discriminate B3. clear B3.
  cbn [forallb] in B1. repeat (let M := fresh "M" in let N := fresh "N" in let P := fresh "P" in
    apply andb_prop in B1 as (M & B1); apply andb_prop in M as (N & P); apply kind_eqb_eq in P).
  unfold names in B2. cbn [calls map combine forallb fst snd] in B2. repeat (let Q := fresh "Q" in apply andb_prop in B2 as (Q & B2); apply text_eqb_eq in Q).
  assert (Cl : forall e x, named e = true -> name_text e = x -> Called e x) by (intros e x HN <-; now apply name_called).
  assert (S32 : In ("i32.const"%string, [], [VI32]) signatures) by (assert (X : existsb (fun s => String.eqb (fst (fst s)) "i32.const" && vals_eqb (snd (fst s)) [] && vals_eqb (snd s) [VI32]) signatures = true) by (vm_compute; reflexivity); apply existsb_exists in X as (((n & ps) & rs) & X & Y); cbn [fst snd] in Y; apply andb_prop in Y as (Y & Y3); apply andb_prop in Y as (Y1 & Y2); apply String.eqb_eq in Y1; apply vals_eqb_ok in Y2, Y3; now subst).
  assert (S64 : In ("i64.const"%string, [], [VI64]) signatures) by (assert (X : existsb (fun s => String.eqb (fst (fst s)) "i64.const" && vals_eqb (snd (fst s)) [] && vals_eqb (snd s) [VI64]) signatures = true) by (vm_compute; reflexivity); apply existsb_exists in X as (((n & ps) & rs) & X & Y); cbn [fst snd] in Y; apply andb_prop in Y as (Y & Y3); apply andb_prop in Y as (Y1 & Y2); apply String.eqb_eq in Y1; apply vals_eqb_ok in Y2, Y3; now subst).
  assert (Sad : In ("i64.add"%string, [VI64; VI64], [VI64]) signatures) by (assert (X : existsb (fun s => String.eqb (fst (fst s)) "i64.add" && vals_eqb (snd (fst s)) [VI64; VI64] && vals_eqb (snd s) [VI64]) signatures = true) by (vm_compute; reflexivity); apply existsb_exists in X as (((n & ps) & rs) & X & Y); cbn [fst snd] in Y; apply andb_prop in Y as (Y & Y3); apply andb_prop in Y as (Y1 & Y2); apply String.eqb_eq in Y1; apply vals_eqb_ok in Y2, Y3; now subst).
  destruct (valid_sig _ _ _ _ _ _ _ _ V P (Cl _ _ N Q) S32) as (low1 & L1 & V1). rewrite app_nil_r in L1. subst low1. clear V. cbn [app] in V1.
  destruct (valid_sig _ _ _ _ _ _ _ _ V1 P0 (Cl _ _ N0 Q0) S32) as (low2 & L2 & V2). rewrite app_nil_r in L2. subst low2. clear V1. cbn [app] in V2.
  destruct (valid_sig _ _ _ _ _ _ _ _ V2 P1 (Cl _ _ N1 Q1) S32) as (low3 & L3 & V3). rewrite app_nil_r in L3. subst low3. clear V2. cbn [app] in V3.
  pose proof (Cl _ _ N2 Q2) as C4. destruct (valid_plain _ _ _ _ _ _ V3 P2 C4 ltac:(discriminate)) as (low & ps & rs & E1 & T & V4). symmetry in E1.
  assert (X : rs = [VI32] /\ low = []).
  { destruct T as [n ps rs C Hi|o g ps rs C|t C|t C|t C|t C|t C|t C|t C]; pose proof (called_inj _ _ _ C C4) as X; try discriminate X.
    - subst n. exfalso. apply (sig_not_special _ _ _ Hi). cbn. auto 10.
    - destruct low as [|x low]; [injection E1 as -> _; auto|]. exfalso. apply (f_equal (@length _)) in E1. cbn [length app] in E1. rewrite app_length in E1. cbn [length] in E1. lia. }
  destruct X as (-> & ->). cbn [app] in V4.
  destruct (valid_sig _ _ _ _ _ _ _ _ V4 P3 (Cl _ _ N3 Q3) S64) as (low5 & L5 & V5). rewrite app_nil_r in L5. subst low5. clear V4. cbn [app] in V5.
  destruct (valid_sig _ _ _ _ _ _ _ _ V5 P4 (Cl _ _ N4 Q4) Sad) as (low6 & L6 & _). symmetry in L6. apply app_last2 in L6 as (L6 & _). discriminate.
Qed.
Print Assumptions C56_sound_refuted.

(** Blocks and unreachable code: what a block gives is reported missing, and so
    is what stands after [unreachable]; and unparenthesised code in a block is
    not looked at. *)
Definition ex_result : text := Text.T "(module (func block (result i32) i32.const 1 end drop))".
Definition ex_unreachable : text := Text.T "(module (func unreachable i32.add drop))".
Definition ex_body : text := Text.T "(module (func block i32.add end))".
Theorem C56_blocks_refuted :
  (exists f, InTree (tree_of ex_result) f /\ is_node f = true /\ ekind f = MODULE_FIELD_FUNC
     /\ ValidCode ex_result [] (body f) [] /\ report ex_result <> Some [])
  /\ (exists f, InTree (tree_of ex_unreachable) f /\ is_node f = true /\ ekind f = MODULE_FIELD_FUNC
     /\ ValidCode ex_unreachable [] (body f) [] /\ report ex_unreachable <> Some [])
  /\ (exists f, InTree (tree_of ex_body) f /\ is_node f = true /\ ekind f = MODULE_FIELD_FUNC
     /\ report ex_body = Some [] /\ ~ exists st, ValidCode ex_body [] (body f) st).
Proof.
  split; [|split].
  - assert (F : existsb (fun e => kind_eqb (ekind e) MODULE_FIELD_FUNC
      && match body e with
         | [b; d] => kind_eqb (ekind b) BLOCK_BLOCK && gives (code_of 5 [] (body b)) [VI32] && gives (code_of 5 [VI32] [d]) []
             && match child b BLOCK_TYPE with
                | Some bt => match childs bt TYPE_USE with [] => true | _ => false end && match written_results bt with [r] => text_eqb (etext r) (show_valtype VI32) | _ => false end
                | None => false
                end
         | _ => false
         end) (descendants (root_of (tree_of ex_result))) = true) by (vm_compute; reflexivity).
    apply node_exists in F as (f & F1 & F3 & F2). apply andb_prop in F2 as [F2 B]. apply kind_eqb_eq in F2. exists f. repeat (split; [assumption|]).
    split; [|vm_compute; discriminate]. destruct (body f) as [|b [|d [|]]]; try discriminate B.
    apply andb_prop in B as (B & B4). apply andb_prop in B as (B & B3). apply andb_prop in B as (B1 & B2). apply kind_eqb_eq in B1.
    apply gives_ok, (code_of_ok ex_result) in B2, B3. destruct B2 as (ls2 & U2 & V2), B3 as (ls3 & U3 & V3).
    exists ([b] :: ls3). split.
    + constructor; [|exact U3]. change [b] with (concat (@nil (list elem)) ++ [b]). constructor. unfold arguments. rewrite B1. constructor.
    + cbn [concat app]. apply Valid_block with ls2 [VI32]; [rewrite B1; now left| |exact U2|exact V2|exact V3].
      unfold BlockType. destruct (child b BLOCK_TYPE) as [bt|]; [|discriminate B4]. apply andb_prop in B4 as (B4 & B5).
      split; [now destruct (childs bt TYPE_USE)|]. unfold Spells. destruct (written_results bt) as [|r [|]]; try discriminate B5.
      apply text_eqb_eq in B5. cbn [map]. now rewrite B5.
  - assert (F : existsb (fun e => kind_eqb (ekind e) MODULE_FIELD_FUNC
      && match body e with
         | u :: r => kind_eqb (ekind u) PLAIN_INSTR && match arguments u with [] => true | _ => false end && named u && text_eqb (name_text u) (Text.T "unreachable") && gives (code_of 5 [VI32; VI32] r) []
         | _ => false
         end) (descendants (root_of (tree_of ex_unreachable))) = true) by (vm_compute; reflexivity).
    apply node_exists in F as (f & F1 & F3 & F2). apply andb_prop in F2 as [F2 B]. apply kind_eqb_eq in F2. exists f. repeat (split; [assumption|]).
    split; [|vm_compute; discriminate]. destruct (body f) as [|u r]; [discriminate B|].
    apply andb_prop in B as (B & B5). apply andb_prop in B as (B & B4). apply andb_prop in B as (B & B3). apply andb_prop in B as (B1 & B2).
    apply gives_ok, (code_of_ok ex_unreachable) in B5. destruct B5 as (ls & U & V). apply text_eqb_eq in B4. exists ([u] :: ls). split.
    + constructor; [|exact U]. apply unfolds_plain. now destruct (arguments u).
    + cbn [concat app]. apply Valid_unreachable with [VI32; VI32]; [|exact V]. rewrite <- B4. now apply name_called.
  - assert (F : existsb (fun e => kind_eqb (ekind e) MODULE_FIELD_FUNC
      && match body e with
         | [b] => kind_eqb (ekind b) BLOCK_BLOCK && negb (named b)
             && match body b with [a] => kind_eqb (ekind a) PLAIN_INSTR && named a && text_eqb (name_text a) (Text.T "i32.add") && match arguments a with [] => true | _ => false end | _ => false end
         | _ => false
         end) (descendants (root_of (tree_of ex_body))) = true) by (vm_compute; reflexivity).
    apply node_exists in F as (f & F1 & F3 & F2). apply andb_prop in F2 as [F2 B]. apply kind_eqb_eq in F2. exists f. repeat (split; [assumption|]).
    split; [vm_compute; reflexivity|]. destruct (body f) as [|b [|]]; try discriminate B.
    apply andb_prop in B as (B & B3). apply andb_prop in B as (B1 & B2). apply kind_eqb_eq in B1. apply negb_true_iff in B2.
    destruct (body b) as [|a [|]] eqn:Eb; try discriminate B3. apply andb_prop in B3 as (B3 & A4). apply andb_prop in B3 as (B3 & A3). apply andb_prop in B3 as (A1 & A2).
    apply kind_eqb_eq in A1. apply text_eqb_eq in A3. pose proof (name_called a A2) as Ca. rewrite A3 in Ca.
    assert (Aa : arguments a = []) by (now destruct (arguments a)). assert (Ab : arguments b = []) by (unfold arguments; now rewrite B1).
    assert (NC : forall x, ~ Called b x). { intros x (t & Ht & _). unfold named in B2. now rewrite Ht in B2. }
    assert (One : forall x ls, arguments x = [] -> Unfolds x ls -> ls = [x]).
    { intros x ls Ax Ux. destruct Ux as [x ls Ux]. rewrite Ax in Ux. inversion Ux. reflexivity. }
    intros (st & ls & U & V). inversion U as [|? l1 ? ls' U1 U2]; subst. inversion U2; subst. rewrite (One b l1 Ab U1) in V. cbn [concat app] in V.
    inversion V as [|low ps rs e l st' T V'|? ? ? ? ? C|? ? lb rs ? ? K BT Ub Vb|? ? ? ? ? ? ? K]; subst.
    + destruct T as [n ps rs C|o g ps rs C|t C|t C|t C|t C|t C|t C|t C]; now apply NC in C.
    + now apply NC in C.
    + rewrite Eb in Ub. inversion Ub as [|? la ? ls' Ua Ua2]; subst. inversion Ua2; subst. rewrite (One a la Aa Ua) in Vb. cbn [concat app] in Vb.
      assert (Sa : In ("i32.add"%string, [VI32; VI32], [VI32]) signatures) by (assert (X : existsb (fun s => String.eqb (fst (fst s)) "i32.add" && vals_eqb (snd (fst s)) [VI32; VI32] && vals_eqb (snd s) [VI32]) signatures = true) by (vm_compute; reflexivity); apply existsb_exists in X as (((n & ps) & rs') & X & Y); cbn [fst snd] in Y; apply andb_prop in Y as (Y & Y3); apply andb_prop in Y as (Y1 & Y2); apply String.eqb_eq in Y1; apply vals_eqb_ok in Y2, Y3; now subst).
      destruct (valid_sig _ _ _ _ _ _ _ _ Vb A1 Ca Sa) as (low & E & _). now destruct low.
    + rewrite B1 in K. discriminate K.
Qed.
Print Assumptions C56_blocks_refuted.
