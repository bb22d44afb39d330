(** The rendering of function headers meets its specification. *)

From Coq Require Import String List NArith Bool Arith Lia Sorted.
From Verif Require Import Text Kind Green SpecParser Lexer LexerFacts Winnow Grammar Sem Lossless Total
  Bounds Lang TokForm Shape ThmParser Red Unique LineIndex ThmTree Cursor ThmPos Doc Ast Binder Preorder SpecBinder BinderFacts
  BinderDefs Blocks Nav NavSpec NavFacts ThmNav RefFacts ThmRefs SymCases TokKinds InstrMeta Types Check CheckFacts
  CheckMsgs ThmDup SpecTypes SigFacts SpecHeader.
Import ListNotations.

Lemma join_concat l : l <> [] -> Text.T " " ++ join_spaces l = concat (map spaced l).
Proof.
  induction l as [|x l IH]; [congruence|]. intros _. destruct l as [|y l].
  - cbn [join_spaces map concat]. unfold spaced. now rewrite app_nil_r.
  - cbn [join_spaces]. cbn [map concat]. cbn [map concat] in IH. rewrite <- IH by discriminate. unfold spaced. now rewrite <- !app_assoc.
Qed.

Lemma map_el_etext l l' : map el l = map el l' -> map etext l = map etext l'.
Proof.
  revert l'. induction l as [|a l IH]; intros [|b l'] H; try discriminate; [reflexivity|]. cbn in H |- *. injection H as H1 H2.
  f_equal; [unfold etext; now rewrite H1|auto].
Qed.
Lemma param_parts_same p q : el p = el q -> param_parts p = param_parts q.
Proof.
  intros E. unfold param_parts. pose proof (token_same p q IDENT E) as X. pose proof (childs_same p q VAL_TYPE E) as Y.
  assert (Y1 : map el (firstn 1 (childs p VAL_TYPE)) = map el (firstn 1 (childs q VAL_TYPE))) by (rewrite <- !firstn_map; congruence).
  apply map_el_etext in Y, Y1.
  destruct (token p IDENT) as [i|], (token q IDENT) as [j|]; cbn in X; try discriminate.
  - assert (etext i = etext j) as -> by (unfold etext; congruence).
    rewrite <- (map_map etext (fun v => Text.T "(param " ++ etext j ++ Text.T " " ++ v ++ Text.T ")")), Y1, map_map. reflexivity.
  - rewrite <- (map_map etext (fun v => Text.T "(param " ++ v ++ Text.T ")")), Y, map_map. reflexivity.
Qed.
Lemma result_parts_same p q : el p = el q -> result_parts p = result_parts q.
Proof.
  intros E. unfold result_parts. pose proof (childs_same p q VAL_TYPE E) as Y. apply map_el_etext in Y.
  rewrite <- (map_map etext (fun v => Text.T "(result " ++ v ++ Text.T ")")), Y, map_map. reflexivity.
Qed.
Lemma flat_map_same {B} (f : elem -> list B) : (forall a b, el a = el b -> f a = f b) ->
  forall l l', map el l = map el l' -> flat_map f l = flat_map f l'.
Proof.
  intros Hf. induction l as [|a l IH]; intros [|b l'] H; try discriminate; [reflexivity|]. cbn in H |- *. injection H as H1 H2.
  f_equal; auto.
Qed.
Lemma sig_parts_same a b : el a = el b -> sig_parts a = sig_parts b.
Proof.
  intros E. unfold sig_parts. f_equal; (apply flat_map_same; [|now apply childs_same]).
  - apply param_parts_same.
  - apply result_parts_same.
Qed.

Section Doc.
  Variable src : text.
  Notation tree := (tree_of src).
  Notation tb := (the_table src).

  Lemma spell_map {B} (f : text -> B) l vs : Spells l vs -> map (fun v => f (show_valtype v)) vs = map (fun e => f (etext e)) l.
  Proof. unfold Spells. intros H. rewrite <- (map_map show_valtype f), <- H, map_map. reflexivity. Qed.

  Lemma sig_param_parts p : part src p -> exists ps, sig_param p = Ans ps /\ map show_param ps = param_parts p.
  Proof.
    intros P. unfold sig_param, param_parts.
    destruct (val_types_spell src (childs p VAL_TYPE)) as (vs & E & S). { intros e He. now apply (childs_part src p). }
    destruct (token p IDENT) as [i|].
    - destruct (childs p VAL_TYPE) as [|v l] eqn:C; cbn [firstn].
      + rewrite E. cbn [abind]. exists (map (fun t => (t, None)) vs). split; [reflexivity|]. cbn in E. injection E as <-. reflexivity.
      + destruct (val_types_spell src [v]) as (vs' & E' & S').
        { intros e [<-|[]]. apply (childs_part src p); [exact P|rewrite C; now left]. }
        cbn [map_ans] in E'. destruct (valtype_from v) as [t| |]; cbn in E'; try discriminate. injection E' as <-.
        cbn [abind]. exists [(t, Some (etext i))]. split; [reflexivity|]. unfold Spells in S'. cbn in S'. injection S' as S'.
        cbn [map]. unfold show_param. cbn [fst snd]. rewrite S'. reflexivity.
    - rewrite E. cbn [abind]. exists (map (fun t => (t, None)) vs). split; [reflexivity|]. rewrite map_map.
      rewrite <- (spell_map (fun v => Text.T "(param " ++ v ++ Text.T ")") _ _ S). reflexivity.
  Qed.
  Lemma sig_parts_root g : Sub tree g -> exists sg, extract_sig g = Ans sg
    /\ map show_param (sig_params sg) ++ map show_result (sig_results sg) = sig_parts (root_of g).
  Proof.
    intros H. assert (P : part src (root_of g)) by exact H. unfold extract_sig, sig_parts.
    assert (X : exists ps, map_ans sig_param (childs (root_of g) PARAM) = Ans ps
                /\ map show_param (concat ps) = flat_map param_parts (childs (root_of g) PARAM)).
    { assert (Hl : forall p, In p (childs (root_of g) PARAM) -> part src p).
      { intros p Hp. now apply (childs_part src (root_of g) PARAM). }
      revert Hl. generalize (childs (root_of g) PARAM). intros l. induction l as [|p l IH]; intros Hl; cbn [map_ans flat_map].
      - exists []. split; reflexivity.
      - destruct (sig_param_parts p (Hl p (or_introl eq_refl))) as (ps & -> & S). destruct IH as (qs & -> & S').
        { intros q Hq. apply Hl. now right. }
        cbn [abind]. exists (ps :: qs). split; [reflexivity|]. cbn [concat]. rewrite map_app. congruence. }
    destruct X as (ps & -> & S). cbn [abind].
    destruct (val_types_spell src (written_results (root_of g))) as (vs & E & S').
    { intros e He. apply in_flat_map in He as (r & Hr & He). apply (childs_part src r); [|exact He].
      now apply (childs_part src (root_of g) RESULT). }
    pose proof E as E'. unfold written_results in E'. rewrite E'. cbn [abind]. eexists. split; [reflexivity|]. cbn [sig_params sig_results].
    rewrite S. f_equal. transitivity (map (fun e => Text.T "(result " ++ etext e ++ Text.T ")") (written_results (root_of g))).
    { exact (spell_map (fun v => Text.T "(result " ++ v ++ Text.T ")") _ _ S'). }
    unfold written_results. generalize (childs (root_of g) RESULT). clear. intros l. induction l as [|r l IH]; cbn [flat_map map]; [reflexivity|].
    rewrite map_app, IH. reflexivity.
  Qed.
  Lemma sig_parts_ok e : part src e -> exists sg, extract_sig (el e) = Ans sg
    /\ map show_param (sig_params sg) ++ map show_result (sig_results sg) = sig_parts e.
  Proof.
    intros P. destruct (sig_parts_root (el e) P) as (sg & E & A). exists sg. split; [exact E|]. rewrite A. now apply sig_parts_same.
  Qed.

  (** The signature shown is the one that is written. *)
  Definition shows_sig (sg : funcsig) (e : elem) : Prop :=
    map show_param (sig_params sg) ++ map show_result (sig_results sg) = sig_parts e.
  Lemma get_sig_spec f s : pointable src f -> s_key s = key_of f -> s_green s = el f ->
    (exists e sg, Signed src f e /\ get_func_sig src tb s = Ans sg /\ shows_sig sg e)
    \/ (forall e, ~ Signed src f e) /\ get_func_sig src tb s = NoAns.
  Proof.
    intros Pf Ek Eg. pose proof Pf as (T & N & K1 & K2). unfold get_func_sig. rewrite Eg, green_child_el.
    destruct (child f TYPE_USE) as [tu|] eqn:C; cbn [option_map aopt abind].
    2:{ right. split; [|reflexivity]. intros e [? X|? ? ? ? X]; congruence. }
    pose proof C as C'. apply child_some in C' as [Hc Kt]. pose proof (in_tree_child src f tu T Hc) as Tt.
    pose proof (written_some src tu Tt Kt) as W.
    assert (N0 : (childs tu PARAM <> [] \/ childs tu RESULT <> []) \/ (childs tu PARAM = [] /\ childs tu RESULT = [])).
    { destruct (childs tu PARAM), (childs tu RESULT); (left; left; discriminate) || (left; right; discriminate) || auto. }
    destruct N0 as [N0|[N1 N2]].
    - left. rewrite (proj2 W N0). destruct (sig_parts_ok tu (tree_part src tu Tt)) as (sg & E & A).
      exists tu, sg. split; [now apply Signed_here|]. split; [exact E|exact A].
    - assert (existsb (fun c => kind_eqb (gkind c) PARAM || kind_eqb (gkind c) RESULT) (gchildren (el tu)) = false) as ->.
      { apply not_true_iff_false. intros X. apply (proj1 W) in X. rewrite N1, N2 in X. intuition congruence. }
      rewrite Ek, to_node_ok by assumption. cbn [amust abind]. rewrite C. cbn [aopt abind].
      destruct (child tu INDEX) as [i|] eqn:I; cbn [aopt abind].
      2:{ right. split; [|reflexivity]. intros e [tu' X Y|tu' i d ft X Y1 Y2 X']; rewrite C in X; injection X as <-; [intuition congruence|congruence]. }
      pose proof I as I'. apply child_some in I' as [Hi _]. pose proof (in_tree_child src tu i Tt Hi) as Ti.
      assert (Ni : is_node i = true) by now apply (child_node tu).
      assert (E : abind (aopt (find_defs tb (key_of i))) (fun ds => abind (aopt (hd_error ds)) (fun d =>
                    abind (aopt (find_func_type_of_type_def (s_green d))) (fun ft => extract_sig ft)))
                  = abind (aopt (first_def tb i)) (fun d => abind (aopt (find_func_type_of_type_def (s_green d))) (fun ft => extract_sig ft))).
      { unfold first_def. destruct (find_defs tb (key_of i)) as [[|? ?]|]; reflexivity. }
      rewrite E. clear E. destruct (first_def tb i) as [sd|] eqn:F; cbn [aopt abind].
      + destruct (first_def_some src i sd Ti Ni F) as (d & M). destruct (first_def_means src i d Ti Ni M) as (sd' & F' & _ & _ & Gd & Td & Nd & _).
        rewrite F in F'. injection F' as <-. unfold find_func_type_of_type_def. rewrite Gd, green_child_el.
        destruct (child d FUNC_TYPE) as [ft|] eqn:Cd; cbn [option_map aopt abind].
        * left. pose proof Cd as Cd'. apply child_some in Cd' as [Hcd _]. pose proof (in_tree_child src d ft Td Hcd) as Tft.
          destruct (sig_parts_ok ft (tree_part src ft Tft)) as (sg' & E & A). exists ft, sg'.
          split; [now apply Signed_type with tu i d|]. split; [exact E|exact A].
        * right. split; [|reflexivity]. intros e [tu' X Y|tu' i' d' ft X Y1 Y2 X' M' C']; rewrite C in X; injection X as <-; [rewrite N1, N2 in Y; intuition congruence|].
          rewrite I in X'. injection X' as <-. pose proof (means_fun src i d d' Ti Ni M M') as <-. congruence.
      + right. split; [|reflexivity]. intros e [tu' X Y|tu' i' d' ft X Y1 Y2 X' M' C']; rewrite C in X; injection X as <-; [rewrite N1, N2 in Y; intuition congruence|].
        rewrite I in X'. injection X' as <-. destruct (first_def_means src i d' Ti Ni M') as (sd' & F' & _). congruence.
  Qed.

  Lemma signed_fun f e e' : InTree tree f -> Signed src f e -> Signed src f e' -> e = e'.
  Proof.
    intros T [tu C H|tu i d ft C H1 H2 I M D] [tu' C' H'|tu' i' d' ft' C' H1' H2' I' M' D']; rewrite C in C'; injection C' as <-.
    - reflexivity.
    - rewrite H1', H2' in H. intuition congruence.
    - rewrite H1, H2 in H'. intuition congruence.
    - rewrite I in I'. injection I' as <-. apply child_some in C as [Hc Kt]. pose proof (in_tree_child src f tu T Hc) as Tt.
      pose proof I as I'. apply child_some in I' as [Hi _]. pose proof (in_tree_child src tu i Tt Hi) as Ti.
      assert (Ni : is_node i = true) by now apply (child_node tu).
      pose proof (means_fun src i d d' Ti Ni M M') as <-. congruence.
  Qed.

  (** The signature part of a text that describes a function or type. *)
  Lemma shown_sig sg e : shows_sig sg e ->
    match sig_params sg, sig_results sg with [], [] => [] | _, _ => Text.T " " ++ show_sig sg end = concat (map spaced (sig_parts e)).
  Proof.
    unfold shows_sig, show_sig. intros H. rewrite <- H. destruct (sig_params sg) as [|p ps] eqn:Ep.
    - destruct (sig_results sg) as [|r rs]; [reflexivity|]. apply join_concat. discriminate.
    - apply join_concat. discriminate.
  Qed.

  Lemma header_spec f s : pointable src f -> s_key s = key_of f -> s_green s = el f ->
    s_kind s = SFunc -> i_name (s_idx s) = ident_of f ->
    exists x, render_func_header src tb s = Ans x /\ forall y, Header src f y <-> y = x.
  Proof.
    intros Pf Ek Eg K Nm. unfold render_func_header. rewrite K, Nm.
    assert (E : match ident_of f with Some x => Text.T " " ++ x | None => [] end = named f).
    { unfold ident_of, named. destruct (token f IDENT); reflexivity. }
    rewrite E. clear E. destruct (get_sig_spec f s Pf Ek Eg) as [(e & sg & S & -> & Sh)|[S ->]].
    - eexists. split; [reflexivity|]. rewrite (shown_sig sg e Sh). intros y. split.
      + intros [e' S'|S']; [|exfalso; now apply (S' e)]. now rewrite (signed_fun f e e' (proj1 Pf) S S').
      + intros ->. now apply Header_sig.
    - eexists. split; [reflexivity|]. intros y. split.
      + intros [e' S'|S']; [exfalso; now apply (S e')|reflexivity].
      + intros ->. now apply Header_none.
  Qed.
End Doc.
