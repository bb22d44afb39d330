(** The type analysis meets its specification. *)

From Coq Require Import String Ascii List NArith Bool Arith Lia.
From Verif Require Import Text Kind Green SpecParser Lexer LexerFacts Winnow Grammar Sem Lossless Total
  Bounds Lang TokForm Shape ThmParser Red Unique LineIndex Cursor Doc Ast Binder Preorder SpecBinder BinderFacts BinderDefs Blocks
  Nav NavSpec NavFacts ThmNav RefFacts ThmRefs SymCases TokKinds InstrMeta Types Check CheckFacts CheckMsgs ThmCheck SpecTypes.
Import ListNotations.

(** ** What depends on the green tree only *)

Lemma kids_greens cs : forall p po us i o, map el (kids p po us i o cs) = cs.
Proof. induction cs as [|c cs IH]; intros; cbn; [reflexivity|now rewrite IH]. Qed.
Lemma greens_all e : map el (children_with_tokens e) = gchildren (el e).
Proof. unfold children_with_tokens. apply kids_greens. Qed.
Lemma map_filter_el (P : elem -> bool) (Q : green -> bool) l : (forall e, P e = Q (el e)) ->
  map el (filter P l) = filter Q (map el l).
Proof. intros H. induction l as [|x l IH]; cbn; [reflexivity|]. rewrite H. destruct (Q (el x)); cbn; now rewrite IH. Qed.
Lemma find_el (P : elem -> bool) (Q : green -> bool) l : (forall e, P e = Q (el e)) ->
  option_map el (find P l) = find Q (map el l).
Proof. intros H. induction l as [|x l IH]; cbn; [reflexivity|]. rewrite H. destruct (Q (el x)); [reflexivity|exact IH]. Qed.
Definition gnode (g : green) : bool := match g with Node _ _ => true | Tok _ _ => false end.
Lemma is_node_el e : is_node e = gnode (el e).
Proof. unfold is_node. now destruct (el e). Qed.
Lemma greens_children e : map el (children e) = filter gnode (gchildren (el e)).
Proof. unfold children. rewrite (map_filter_el _ gnode) by apply is_node_el. now rewrite greens_all. Qed.
Lemma greens_childs e k : map el (childs e k) = filter (fun g => kind_eqb (gkind g) k) (filter gnode (gchildren (el e))).
Proof. unfold childs. rewrite (map_filter_el _ (fun g => kind_eqb (gkind g) k)) by reflexivity. now rewrite greens_children. Qed.
Lemma green_token e k : option_map el (token e k) = find (fun g => negb (gnode g) && kind_eqb (gkind g) k) (gchildren (el e)).
Proof. unfold token. rewrite <- greens_all. apply find_el. intros x. now rewrite is_node_el. Qed.
Lemma find_filter_hd {A} (P Q : A -> bool) l : find (fun x => P x && Q x) l = find Q (filter P l).
Proof. induction l as [|x l IH]; cbn; [reflexivity|]. destruct (P x); cbn; [now destruct (Q x)|exact IH]. Qed.
Lemma green_child_el e k : green_child k (el e) = option_map el (child e k).
Proof.
  unfold green_child, child. rewrite (find_el _ (fun g => kind_eqb (gkind g) k)) by reflexivity.
  rewrite greens_children, <- find_filter_hd. induction (gchildren (el e)) as [|g l IH]; [reflexivity|]. cbn [find].
  rewrite IH. destruct g; reflexivity.
Qed.

Section Same.
  Context {A : Type} (f : elem -> list A).
  Hypothesis Hf : forall a b, el a = el b -> f a = f b.
  Lemma flat_map_el l : forall l', map el l = map el l' -> flat_map f l = flat_map f l'.
  Proof.
    induction l as [|x l IH]; intros [|y l'] H; try discriminate; [reflexivity|]. cbn in *. injection H as H1 H2.
    now rewrite (Hf x y H1), (IH l' H2).
  Qed.
End Same.
Lemma childs_same a b k : el a = el b -> map el (childs a k) = map el (childs b k).
Proof. intros H. now rewrite !greens_childs, H. Qed.
Lemma token_same a b k : el a = el b -> option_map el (token a k) = option_map el (token b k).
Proof. intros H. now rewrite !green_token, H. Qed.
Lemma params_same a b : el a = el b -> map el (written_params a) = map el (written_params b).
Proof.
  intros H. unfold written_params. rewrite !flat_map_concat_map, !concat_map, !map_map, <- !flat_map_concat_map.
  apply flat_map_el; [|now apply childs_same]. clear. intros a b H.
  pose proof (token_same a b IDENT H) as T. pose proof (childs_same a b VAL_TYPE H) as C.
  destruct (token a IDENT), (token b IDENT); try discriminate; [|exact C]. now rewrite <- !firstn_map, C.
Qed.
Lemma results_same a b : el a = el b -> map el (written_results a) = map el (written_results b).
Proof.
  intros H. unfold written_results. rewrite !flat_map_concat_map, !concat_map, !map_map, <- !flat_map_concat_map.
  apply flat_map_el; [|now apply childs_same]. clear. intros a b H. now apply childs_same.
Qed.
Lemma spells_same l l' ts : map el l = map el l' -> Spells l ts -> Spells l' ts.
Proof.
  unfold Spells. intros H <-. revert l' H. induction l as [|x l IH]; intros [|y l'] H; try discriminate; [reflexivity|].
  cbn in *. injection H as H1 H2. rewrite (IH l' H2). f_equal. unfold etext. now rewrite H1.
Qed.
Lemma show_inj a b : show_valtype a = show_valtype b -> a = b.
Proof. destruct a, b; vm_compute; congruence. Qed.
Lemma shows_inj a : forall b, map show_valtype a = map show_valtype b -> a = b.
Proof.
  induction a as [|x a IH]; intros [|y b] H; try discriminate; [reflexivity|]. cbn [map] in H. injection H as H1 H2.
  apply show_inj in H1. f_equal; auto.
Qed.
Lemma spells_app l1 l2 t1 t2 : Spells l1 t1 -> Spells l2 t2 -> Spells (l1 ++ l2) (t1 ++ t2).
Proof. unfold Spells. intros A B. now rewrite !map_app, A, B. Qed.
Lemma spells_fun l a b : Spells l a -> Spells l b -> a = b.
Proof. unfold Spells. intros A B. apply shows_inj. congruence. Qed.

Lemma enum_length l : forall i, length (enum i l) = length l.
Proof. induction l as [|x l IH]; intros i; cbn; [reflexivity|now rewrite IH]. Qed.

(** ** The table *)

Lemma T_inj a b : T a = T b -> a = b.
Proof.
  revert b. induction a as [|c a IH]; intros [|c' b]; cbn; try discriminate; [reflexivity|].
  intros H. injection H as H1 H2. f_equal; [|now apply IH].
  rewrite <- (ascii_N_embedding c), <- (ascii_N_embedding c'). now rewrite H1.
Qed.

Lemma meta_row x m : meta_of x = Some m <-> Row x m.
Proof.
  unfold meta_of, Row. split.
  - destruct (find _ _) as [(s & m')|] eqn:F; cbn; [|discriminate]. intros H. injection H as ->.
    apply find_some in F as [F1 F2]. cbn in F2. apply text_eqb_eq in F2. exists s. split; [exact F1|exact F2].
  - intros (s & Hin & <-).
    assert (ND : NoDup (map fst instr_table)).
    { apply (NoDup_count_occ' string_dec). assert (C : forallb (fun x => Nat.eqb (count_occ string_dec (map fst instr_table) x) 1) (map fst instr_table) = true) by (vm_compute; reflexivity).
      intros y Hy. rewrite forallb_forall in C. now apply Nat.eqb_eq, C. }
    revert Hin ND. generalize instr_table. intros l. induction l as [|(s' & m') l IH]; intros Hin ND; [destruct Hin|].
    cbn [find fst]. destruct (text_eqb (T s') (T s)) eqn:E.
    + apply text_eqb_eq, T_inj in E. subst s'. destruct Hin as [Hin|Hin]; [now injection Hin as ->|].
      cbn in ND. inversion ND as [|? ? X _]. destruct X. now apply (in_map fst) in Hin.
    + destruct Hin as [Hin|Hin].
      * injection Hin as <- <-. rewrite text_eqb_refl in E. discriminate.
      * apply IH; [exact Hin|]. cbn in ND. now inversion ND.
Qed.
Lemma meta_none x : meta_of x = None <-> forall m, ~ Row x m.
Proof.
  split.
  - intros H m R. apply meta_row in R. congruence.
  - intros H. destruct (meta_of x) as [m|] eqn:E; [|reflexivity]. apply meta_row in E. now destruct (H m).
Qed.

Lemma no_type_token e : token e NUM_TYPE = None -> token e VEC_TYPE = None -> token e REF_TYPE = None ->
  valtype_of_green (el e) = None.
Proof.
  intros A B C. unfold valtype_of_green.
  assert (A' := green_token e NUM_TYPE). assert (B' := green_token e VEC_TYPE). assert (C' := green_token e REF_TYPE).
  rewrite A in A'. rewrite B in B'. rewrite C in C'. cbn [option_map] in *. clear A B C.
  induction (gchildren (el e)) as [|g l IH]; [reflexivity|]. cbn [find] in *.
  destruct g as [k t|k cs]; cbn [gnode negb andb gkind] in *; [|cbn [find_map]; now apply IH].
  cbn [find_map]. destruct k; cbn in A', B', C'; try discriminate; now apply IH.
Qed.

Section Doc.
  Variable src : text.
  Notation tree := (tree_of src).
  Notation nodes := (nodes src).
  Notation tb := (the_table src).

  Lemma valtype_green e : part src e -> is_node e = true -> ekind e = VAL_TYPE ->
    exists v, valtype_of_green (el e) = Some v /\ etext e = show_valtype v.
  Proof.
    unfold part, is_node, ekind, etext. intros P N K. destruct e as [g o us]. cbn [el] in *.
    destruct g as [k t|k cs]; [discriminate|]. cbn in K. subst k.
    destruct (val_type_node src cs P) as (k & t & v & -> & Et & H). exists v. split.
    - unfold valtype_of_green. cbn [gchildren find_map].
      destruct H as [[-> H]|[[-> ->]|[-> H]]]; [|reflexivity|]; now rewrite H.
    - cbn. rewrite app_nil_r. exact Et.
  Qed.
  Lemma extract_type_nodes e : part src e -> valtype_of_green (el e) = None ->
    match hd_error (childs e VAL_TYPE) with
    | Some v => exists t, extract_type (el e) = Some t /\ etext v = show_valtype t
    | None => extract_type (el e) = None
    end.
  Proof.
    intros P N. unfold extract_type. rewrite N.
    assert (H : forall c, In c (childs e VAL_TYPE) -> exists v, valtype_of_green (el c) = Some v /\ etext c = show_valtype v).
    { intros c Hc. destruct (childs_part src e VAL_TYPE c P Hc) as (A & B & C). now apply valtype_green. }
    pose proof (greens_childs e VAL_TYPE) as G. revert H G. generalize (childs e VAL_TYPE). intros l H G.
    revert l H G. induction (gchildren (el e)) as [|g gs IH]; intros l H G; cbn [filter find_map] in *.
    - destruct l; [reflexivity|discriminate].
    - destruct g as [k t|k cs]; cbn [gnode gkind filter] in G; [now apply IH|].
      destruct (kind_eqb k VAL_TYPE) eqn:K.
      + apply kind_eqb_eq in K. subst k. destruct l as [|v l]; [discriminate|]. cbn [map hd_error] in *. injection G as G1 G2.
        destruct (H v (or_introl eq_refl)) as (t & E1 & E2). exists t. rewrite G1 in E1. now rewrite E1.
      + specialize (IH l H G). destruct k; try exact IH. discriminate.
  Qed.

  Lemma slot_type d : InTree tree d -> is_node d = true -> In (ekind d) [VAL_TYPE; PARAM; LOCAL] ->
    forall t, extract_type (el d) = Some t <-> SlotType d t.
  Proof.
    intros T N K t. unfold SlotType. pose proof (tree_part src d T) as P. destruct (kind_eqb (ekind d) VAL_TYPE) eqn:E.
    - apply kind_eqb_eq in E. destruct (valtype_green d P N E) as (v & E1 & E2). unfold extract_type. rewrite E1, E2.
      split; [congruence|]. intros H. now apply show_inj in H as ->.
    - assert (Z : valtype_of_green (el d) = None).
      { apply no_type_token; apply (no_token src d _ T); cbn in K; destruct K as [K|[K|[K|[]]]]; rewrite <- K in *; try discriminate; vm_compute; reflexivity. }
      pose proof (extract_type_nodes d P Z) as H. destruct (hd_error (childs d VAL_TYPE)) as [v|].
      + destruct H as (t' & -> & H). split.
        * intros X. injection X as ->. eauto.
        * intros (v' & X & Y). injection X as <-. f_equal. apply show_inj. congruence.
      + rewrite H. split; [discriminate|]. intros (v & X & _). discriminate.
  Qed.
  Lemma global_type g : InTree tree g -> forall t, extract_global_type (el g) = Some t <-> GlobalType g t.
  Proof.
    intros T t. unfold extract_global_type, GlobalType. rewrite green_child_el.
    destruct (child g GLOBAL_TYPE) as [gt|] eqn:C; cbn [option_map].
    - apply child_some in C as [C K]. pose proof (in_tree_child src g gt T C) as Tg.
      assert (Z : valtype_of_green (el gt) = None).
      { apply no_type_token; apply (no_token src gt _ Tg); try rewrite K; try discriminate; vm_compute; reflexivity. }
      pose proof (extract_type_nodes gt (tree_part src gt Tg) Z) as H. destruct (hd_error (childs gt VAL_TYPE)) as [v|] eqn:V.
      + destruct H as (t' & -> & H). split.
        * intros X. injection X as ->. eauto.
        * intros (gt' & v' & X & Y & Y'). injection X as <-. rewrite V in Y. injection Y as <-. f_equal. apply show_inj. congruence.
      + rewrite H. split; [discriminate|]. intros (gt' & v & X & Y & _). injection X as <-. congruence.
    - split; [discriminate|]. intros (? & ? & X & _). discriminate.
  Qed.

  (** ** Signatures *)

  Lemma val_types_spell l : (forall e, In e l -> part src e /\ is_node e = true /\ ekind e = VAL_TYPE) ->
    exists vs, map_ans valtype_from l = Ans vs /\ Spells l vs.
  Proof.
    intros H. destruct (val_types_ok src l H) as (vs & E & F). exists vs. split; [exact E|]. unfold Spells.
    clear E H. induction F; cbn; [reflexivity|congruence].
  Qed.
  Definition param_nodes (p : elem) : list elem :=
    match token p IDENT with Some _ => firstn 1 (childs p VAL_TYPE) | None => childs p VAL_TYPE end.
  Lemma sig_param_spell p : part src p -> exists ps, sig_param p = Ans ps /\ Spells (param_nodes p) (map fst ps).
  Proof.
    intros P. unfold sig_param, param_nodes.
    destruct (val_types_spell (childs p VAL_TYPE)) as (vs & E & S). { intros e He. now apply (childs_part src p). }
    destruct (token p IDENT) as [i|].
    - destruct (childs p VAL_TYPE) as [|v l] eqn:C; cbn [firstn].
      + rewrite E. cbn [abind]. exists (map (fun t => (t, None)) vs). split; [reflexivity|]. now rewrite map_map, map_id.
      + destruct (val_types_spell [v]) as (vs' & E' & S').
        { intros e [<-|[]]. apply (childs_part src p); [exact P|rewrite C; now left]. }
        cbn [map_ans] in E'. destruct (valtype_from v) as [t| |]; cbn in E'; try discriminate. injection E' as <-.
        cbn [abind]. exists [(t, Some (etext i))]. split; [reflexivity|exact S'].
    - rewrite E. cbn [abind]. exists (map (fun t => (t, None)) vs). split; [reflexivity|]. now rewrite map_map, map_id.
  Qed.
  Lemma sig_spells g : Sub tree g -> exists sg, extract_sig g = Ans sg
    /\ Spells (written_params (root_of g)) (map fst (sig_params sg)) /\ Spells (written_results (root_of g)) (sig_results sg).
  Proof.
    intros H. assert (P : part src (root_of g)) by exact H. unfold extract_sig.
    assert (X : exists ps, map_ans sig_param (childs (root_of g) PARAM) = Ans ps
                /\ Spells (written_params (root_of g)) (map fst (concat ps))).
    { unfold written_params. change (fun p => match token p IDENT with Some _ => firstn 1 (childs p VAL_TYPE) | None => childs p VAL_TYPE end) with param_nodes.
      assert (Hl : forall p, In p (childs (root_of g) PARAM) -> part src p).
      { intros p Hp. now apply (childs_part src (root_of g) PARAM). }
      revert Hl. generalize (childs (root_of g) PARAM). intros l. induction l as [|p l IH]; intros Hl; cbn [map_ans flat_map].
      - exists []. split; reflexivity.
      - destruct (sig_param_spell p (Hl p (or_introl eq_refl))) as (ps & -> & S). destruct IH as (qs & -> & S').
        { intros q Hq. apply Hl. now right. }
        cbn [abind]. exists (ps :: qs). split; [reflexivity|]. cbn [concat]. rewrite map_app. now apply spells_app. }
    destruct X as (ps & -> & S). cbn [abind].
    destruct (val_types_spell (written_results (root_of g))) as (vs & E & S').
    { intros e He. apply in_flat_map in He as (r & Hr & He). apply (childs_part src r); [|exact He].
      now apply (childs_part src (root_of g) RESULT). }
    unfold written_results in E. rewrite E. cbn [abind]. eexists. split; [reflexivity|]. cbn [sig_params sig_results]. auto.
  Qed.
  Lemma sig_spells_at e : part src e -> exists sg, extract_sig (el e) = Ans sg
    /\ Spells (written_params e) (map fst (sig_params sg)) /\ Spells (written_results e) (sig_results sg).
  Proof.
    intros P. destruct (sig_spells (el e) P) as (sg & E & A & B). exists sg. split; [exact E|]. split.
    - eapply spells_same; [|exact A]. now apply params_same.
    - eapply spells_same; [|exact B]. now apply results_same.
  Qed.

  (** ** Definitions *)

  Lemma module_first s w m :
    option_map snd (hd_error (filter (matches s w) (enum 0 (definitions m)))) = module_target m s w.
  Proof.
    assert (X : forall {A B} (f : A -> B) l, option_map f (hd_error l) = hd_error (map f l)) by (intros A B f [|]; reflexivity).
    rewrite X. destruct w as [x|k]; cbn [module_target].
    - rewrite matches_named. induction (definitions_of s m) as [|d l IH]; cbn; [reflexivity|]. now destruct (has_name x d).
    - rewrite matches_numbered. destruct nth_error as [d|]; [|reflexivity]. now destruct (has_sort s d).
  Qed.
  Lemma first_def_means n d : InTree tree n -> is_node n = true -> Means src n d ->
    exists s, first_def tb n = Some s /\ In s (raw_symbols nodes) /\ s_key s = key_of d /\ s_green s = el d /\ InTree tree d /\ is_node d = true
      /\ exists so, s_kind s = sort_kind so /\ has_sort so d = true.
  Proof.
    intros T N (s & m & w & A & W & M & Tm & D). unfold first_def.
    rewrite (find_defs_spec src n s w m T N A W M Tm). rewrite <- module_first in D.
    destruct (filter (matches s w) (enum 0 (definitions m))) as [|(i & d') l] eqn:F; [discriminate|]. cbn in D. injection D as ->.
    cbn [map]. exists (def_symbol m (sort_kind s) (i, d)).
    assert (Hi : In (i, d) (filter (matches s w) (enum 0 (definitions m)))) by (rewrite F; now left).
    apply filter_In in Hi as [Hi Hm]. split; [reflexivity|].
    assert (Hd : In d (definitions m)). { apply in_enum in Hi as (j & Hj & _). cbn in Hj. now apply nth_error_In in Hj. }
    destruct (def_pointable src m d Tm Hd) as (Td & Nd & _).
    assert (S : has_sort s d = true) by (unfold matches in Hm; apply andb_prop in Hm; apply Hm).
    split.
    - eapply first_def_raw with (e := n). unfold first_def. rewrite (find_defs_spec src n s w m T N A W M Tm), F. reflexivity.
    - repeat split; auto. exists s. split; [reflexivity|exact S].
  Qed.
  Lemma first_def_some n s : InTree tree n -> is_node n = true -> first_def tb n = Some s -> exists d, Means src n d.
  Proof.
    intros T N H. unfold first_def in H. destruct (find_defs tb (key_of n)) as [ds|] eqn:FD; [|discriminate].
    pose proof FD as FD'. unfold find_defs in FD'.
    destruct (find_key tb (key_of n)) as [r|] eqn:F; [|discriminate].
    assert (Hr : In r (raw_symbols nodes) /\ s_key r = key_of n).
    { unfold find_key in F. apply find_some in F as [F1 F2]. split; [exact F1|]. apply key_eqb_eq in F2. congruence. }
    destruct (def_kind (s_kind r)) as [dk|] eqn:K; [|discriminate].
    assert (R : is_ref_kind r = true) by (unfold is_ref_kind; destruct (s_kind r); cbn in K; congruence || reflexivity).
    destruct (ref_found src n r T N (proj1 Hr) (proj2 Hr) R) as (a & w & e & A & W & He & ->).
    cbn [ref_sym s_kind] in K. destruct a as [so| |]; try discriminate. cbn [enclosing_of] in He.
    destruct (enclosing_kind src MODULE n e T N He) as (Te & Ne & Ke & De).
    assert (M : in_module n e) by (split; auto).
    rewrite (find_defs_spec src n so w e T N A W M Te) in FD. injection FD as <-.
    destruct (filter (matches so w) (enum 0 (definitions e))) as [|p l] eqn:Fl; [discriminate|].
    exists (snd p), so, e, w. repeat (split; [assumption|]). rewrite <- module_first, Fl. reflexivity.
  Qed.

  Lemma written_some tu : InTree tree tu -> ekind tu = TYPE_USE ->
    (existsb (fun c => kind_eqb (gkind c) PARAM || kind_eqb (gkind c) RESULT) (gchildren (el tu)) = true <->
     childs tu PARAM <> [] \/ childs tu RESULT <> []).
  Proof.
    intros T K.
    assert (X : forall k, k = PARAM \/ k = RESULT -> (childs tu k <> [] <-> exists c, In c (gchildren (el tu)) /\ gkind c = k)).
    { intros k Hk. rewrite <- greens_all. split.
      - intros H. destruct (childs tu k) as [|c l] eqn:C; [congruence|].
        assert (Hc : In c (childs tu k)) by (rewrite C; now left). apply in_childs in Hc as [Hc Ek]. apply in_children in Hc as [Hc _].
        exists (el c). split; [now apply in_map|exact Ek].
      - intros (g & Hg & Ek). apply in_map_iff in Hg as (c & <- & Hc). destruct (is_node c) eqn:N.
        + assert (Hin : In c (childs tu k)) by (apply in_childs; split; [apply in_children; auto|exact Ek]).
          intros E. rewrite E in Hin. destruct Hin.
        + exfalso. destruct (token_kind src tu c T Hc N) as [Y|Y]; [rewrite K; discriminate|..]; change (gkind (el c)) with (ekind c) in Ek; rewrite Ek in Y.
          * rewrite K in Y. destruct Hk as [->| ->]; vm_compute in Y; intuition discriminate.
          * destruct Hk as [->| ->]; destruct Y as [Y|Y]; vm_compute in Y; intuition discriminate. }
    rewrite existsb_exists, !X by auto. split.
    - intros (c & Hc & E). apply orb_prop in E as [E|E]; apply kind_eqb_eq in E; [left|right]; eauto.
    - intros [(c & Hc & E)|(c & Hc & E)]; exists c; (split; [exact Hc|]); rewrite E; reflexivity.
  Qed.
  Lemma func_sig_iff f s : pointable src f -> s_key s = key_of f -> s_green s = el f ->
    forall ps rs, FuncType src f ps rs <-> exists sg, get_func_sig src tb s = Ans sg /\ ps = map fst (sig_params sg) /\ rs = sig_results sg.
  Proof.
    intros Pf Ek Eg ps rs. pose proof Pf as (T & N & K1 & K2). unfold get_func_sig. rewrite Eg, green_child_el.
    destruct (child f TYPE_USE) as [tu|] eqn:C; cbn [option_map aopt abind].
    2:{ split; [intros [? X|? ? ? ? X]; congruence|]. intros (sg & X & _). discriminate. }
    pose proof C as C'. apply child_some in C' as [Hc Kt]. pose proof (in_tree_child src f tu T Hc) as Tt.
    pose proof (written_some tu Tt Kt) as W.
    assert (N0 : (childs tu PARAM <> [] \/ childs tu RESULT <> []) \/ (childs tu PARAM = [] /\ childs tu RESULT = [])).
    { destruct (childs tu PARAM), (childs tu RESULT); (left; left; discriminate) || (left; right; discriminate) || auto. }
    destruct N0 as [N0|[N1 N2]].
    - rewrite (proj2 W N0). destruct (sig_spells_at tu (tree_part src tu Tt)) as (sg & -> & A & B). split.
      + intros [tu' X Y P R|tu' i d ft X Y1 Y2 _ _ _ _ _]; rewrite C in X; injection X as <-; [|rewrite Y1, Y2 in N0; intuition congruence].
        exists sg. split; [reflexivity|]. split; [apply (spells_fun _ _ _ P A)|apply (spells_fun _ _ _ R B)].
      + intros (sg' & X & -> & ->). injection X as <-. now apply FT_written with tu.
    - assert (existsb (fun c => kind_eqb (gkind c) PARAM || kind_eqb (gkind c) RESULT) (gchildren (el tu)) = false) as ->.
      { apply not_true_iff_false. intros X. apply (proj1 W) in X. rewrite N1, N2 in X. intuition congruence. }
      rewrite Ek, to_node_ok by assumption. cbn [amust abind]. rewrite C. cbn [aopt abind].
      destruct (child tu INDEX) as [i|] eqn:I; cbn [aopt abind].
      2:{ split; [intros [tu' X Y|tu' i d ft X Y1 Y2 X']; rewrite C in X; injection X as <-; [intuition congruence|congruence]|].
          intros (sg & X & _). discriminate. }
      pose proof I as I'. apply child_some in I' as [Hi _]. pose proof (in_tree_child src tu i Tt Hi) as Ti.
      assert (Ni : is_node i = true) by now apply (child_node tu).
      assert (E : abind (aopt (find_defs tb (key_of i))) (fun ds => abind (aopt (hd_error ds)) (fun d =>
                    abind (aopt (find_func_type_of_type_def (s_green d))) (fun ft => extract_sig ft)))
                  = abind (aopt (first_def tb i)) (fun d => abind (aopt (find_func_type_of_type_def (s_green d))) (fun ft => extract_sig ft))).
      { unfold first_def. destruct (find_defs tb (key_of i)) as [[|? ?]|]; reflexivity. }
      rewrite E. clear E. split.
      + intros [tu' X Y|tu' i' d ft X Y1 Y2 I2 M Cd P R]; rewrite C in X; injection X as <-; [rewrite N1, N2 in Y; intuition congruence|].
        rewrite I in I2. injection I2 as <-. destruct (first_def_means i d Ti Ni M) as (sd & -> & _ & _ & Gd & Td & Nd & _).
        cbn [aopt abind]. unfold find_func_type_of_type_def. rewrite Gd, green_child_el, Cd. cbn [option_map aopt abind].
        apply child_some in Cd as [Hcd _]. pose proof (in_tree_child src d ft Td Hcd) as Tft.
        destruct (sig_spells_at ft (tree_part src ft Tft)) as (sg & -> & A & B). exists sg. split; [reflexivity|].
        split; [apply (spells_fun _ _ _ P A)|apply (spells_fun _ _ _ R B)].
      + intros (sg & H & -> & ->). destruct (first_def tb i) as [sd|] eqn:F; cbn [aopt abind] in H; [|discriminate].
        destruct (first_def_some i sd Ti Ni F) as (d & M). destruct (first_def_means i d Ti Ni M) as (sd' & F' & _ & _ & Gd & Td & Nd & _).
        rewrite F in F'. injection F' as <-. unfold find_func_type_of_type_def in H. rewrite Gd, green_child_el in H.
        destruct (child d FUNC_TYPE) as [ft|] eqn:Cd; cbn [option_map aopt abind] in H; [|discriminate].
        pose proof Cd as Cd'. apply child_some in Cd' as [Hcd _]. pose proof (in_tree_child src d ft Td Hcd) as Tft.
        destruct (sig_spells_at ft (tree_part src ft Tft)) as (sg' & E & A & B). rewrite E in H. injection H as <-.
        now apply FT_named with tu i d ft.
  Qed.

  (** ** Instructions *)

  Lemma called_iff e x : instr_name_of e = Some x <-> Called e x.
  Proof.
    unfold instr_name_of, Called. destruct (token e INSTR_NAME) as [t|]; cbn; split.
    - intros H. injection H as <-. eauto.
    - intros (t' & H & <-). now injection H as <-.
    - discriminate.
    - intros (t & H & _). discriminate.
  Qed.
  Lemma called_fun e x y : Called e x -> Called e y -> x = y.
  Proof. intros A B. apply called_iff in A, B. congruence. Qed.
  Lemma operand_in e o : InTree tree e -> FirstOperand e o -> InTree tree o /\ is_node o = true.
  Proof.
    intros T H. unfold FirstOperand in H. assert (Hin : In o (childs e OPERAND)) by (destruct (childs e OPERAND); [discriminate|injection H as ->; now left]).
    destruct (in_tree_childs src e OPERAND o T Hin) as (A & B & _). auto.
  Qed.
  Lemma params_declared f : pointable src f ->
    length (filter (fun s => skind_eqb (s_kind s) SParam) (get_declared_params_and_locals tb f)) = length (declared_params f).
  Proof.
    intros (T & N & _ & _). unfold get_declared_params_and_locals, declared_params.
    assert (E : filter (fun s => is_param_or_local s && key_eqb (s_region s) (key_of f)) (symbols tb)
                = filter (fun s => key_eqb (s_region s) (key_of f) && is_param_or_local s) (raw_symbols nodes)).
    { cbn [the_table symbols]. apply filter_ext. intros s. apply andb_comm. }
    rewrite E. clear E. destruct (kind_eqb (ekind f) MODULE_FIELD_FUNC) eqn:K.
    - apply kind_eqb_eq in K. rewrite (func_locals src f T N K). unfold local_symbols. rewrite filter_app, app_length.
      rewrite filter_all, map_length, enum_length.
      + rewrite (filter_none _ (map (slot_symbol f SLocal) _)); [cbn; unfold param_slots; now rewrite Nat.add_0_r|].
        intros s Hs. apply in_map_iff in Hs as (p & <- & _). reflexivity.
      + intros s Hs. apply in_map_iff in Hs as (p & <- & _). reflexivity.
    - rewrite (filter_none _ (raw_symbols nodes)); [reflexivity|]. intros s Hs. apply not_true_iff_false. intros X.
      apply andb_prop in X as [X1 X2]. apply key_eqb_eq in X1.
      destruct (raw_cases src s Hs); subst s; try (cbn in X2; discriminate).
      + destruct so; discriminate.
      + cbn in X1. assert (f = f0) as -> by (apply (key_inj src); auto). rewrite H1 in K. discriminate.
      + destruct a as [so| |]; try discriminate. destruct so; discriminate.
  Qed.
  Lemma def_ptr n d : InTree tree n -> is_node n = true -> Means src n d -> pointable src d.
  Proof.
    intros T N (s & m & w & A & W & M & Tm & D). apply (def_pointable src m d Tm). rewrite <- module_first in D.
    destruct (filter (matches s w) (enum 0 (definitions m))) as [|(i & d') l] eqn:F; [discriminate|]. cbn in D. injection D as ->.
    assert (Hi : In (i, d) (filter (matches s w) (enum 0 (definitions m)))) by (rewrite F; now left).
    apply filter_In in Hi as [Hi _]. apply in_enum in Hi as (j & Hj & _). cbn in Hj. now apply nth_error_In in Hj.
  Qed.
  Lemma means_fun n d d' : InTree tree n -> is_node n = true -> Means src n d -> Means src n d' -> d = d'.
  Proof.
    intros T N A B. destruct (first_def_means n d T N A) as (s & F & _ & K & _ & Td & Nd & _).
    destruct (first_def_means n d' T N B) as (s' & F' & _ & K' & _ & Td' & Nd' & _). rewrite F in F'. injection F' as <-.
    apply (key_inj src); congruence.
  Qed.

  Lemma takes_iff e : InTree tree e -> forall ps,
    Takes src e ps <-> exists xs, resolve_expected_types src tb e = Ans xs /\ ps = map fst xs.
  Proof.
    intros T ps. unfold resolve_expected_types. destruct (instr_name_of e) as [nm|] eqn:Nm; cbn [aopt abind].
    2:{ split; [|intros (xs & X & _); discriminate].
        intros [o f ps' rs H|x m H]; apply called_iff in H; congruence. }
    apply called_iff in Nm. destruct (text_eqb nm (Text.T "call")) eqn:Ec.
    - apply text_eqb_eq in Ec. subst nm. fold (operands e). split.
      + intros H. destruct H as [o f ps rs _ O M F|x m H1 H2 _]; [|now destruct (H2 (called_fun e _ _ H1 Nm))].
        destruct (operand_in e o T O) as (To & No). pose proof (def_ptr o f To No M) as Pf.
        destruct (first_def_means o f To No M) as (s & Fd & Hs & Ks & Gs & _ & _ & _).
        unfold operands. unfold FirstOperand in O. rewrite O. cbn [aopt abind]. rewrite Fd. cbn [aopt abind].
        rewrite Ks, to_node_ok by apply Pf. cbn [amust abind].
        destruct (proj1 (func_sig_iff f s Pf Ks Gs ps rs) F) as (sg & -> & -> & ->). cbn [abind].
        eexists. split; [reflexivity|]. rewrite <- (params_declared f Pf).
        generalize (filter (fun s0 => skind_eqb (s_kind s0) SParam) (get_declared_params_and_locals tb f)). intros l.
        generalize (sig_params sg). intros q. clear. revert l. induction q as [|x q IH]; intros [|y l]; cbn; try reflexivity. now rewrite IH.
      + intros (xs & H & ->). destruct (hd_error (operands e)) as [o|] eqn:O; cbn [aopt abind] in H; [|discriminate].
        destruct (operand_in e o T O) as (To & No). destruct (first_def tb o) as [s|] eqn:Fd; cbn [aopt abind] in H; [|discriminate].
        destruct (first_def_some o s To No Fd) as (f & M). pose proof (def_ptr o f To No M) as Pf.
        destruct (first_def_means o f To No M) as (s' & Fd' & Hs & Ks & Gs & _ & _ & _). rewrite Fd in Fd'. injection Fd' as <-.
        rewrite Ks, to_node_ok in H by apply Pf. cbn [amust abind] in H.
        destruct (get_func_sig src tb s) as [sg| |] eqn:Sg; cbn [abind] in H; try discriminate. injection H as <-.
        assert (F : FuncType src f (map fst (sig_params sg)) (sig_results sg)) by (apply (func_sig_iff f s Pf Ks Gs); eauto).
        pose proof (Takes_call src e o f _ _ Nm O M F) as G. rewrite <- (params_declared f Pf) in G.
        revert G. generalize (filter (fun s0 => skind_eqb (s_kind s0) SParam) (get_declared_params_and_locals tb f)). intros l.
        generalize (sig_params sg). intros q G. match type of G with Takes _ _ ?a => match goal with |- Takes _ _ ?b => replace b with a; [exact G|] end end.
        clear. revert l. induction q as [|x q IH]; intros [|y l]; cbn; try reflexivity. now rewrite IH.
    - assert (Hn : nm <> Text.T "call") by (intros ->; rewrite text_eqb_refl in Ec; discriminate). split.
      + intros [o f ps' rs H|x m H1 H2 R]; [now destruct (Hn (called_fun e _ _ Nm H))|].
        rewrite (called_fun e _ _ Nm H1). apply meta_row in R. rewrite R. cbn [aopt abind]. eexists. split; [reflexivity|].
        now rewrite map_map, map_id.
      + intros (xs & H & ->). destruct (meta_of nm) as [m|] eqn:R; cbn [aopt abind] in H; [|discriminate]. injection H as <-.
        rewrite map_map, map_id. apply meta_row in R. now apply Takes_row with nm.
  Qed.

  Lemma local_asks e o : InTree tree e -> ekind e = PLAIN_INSTR -> Called e (Text.T "local.get") -> FirstOperand e o -> Asks o ALocal.
  Proof.
    intros T K (t & H1 & H2) O. apply Asks_local with e.
    - unfold FirstOperand in O. assert (Hin : In o (childs e OPERAND)) by (destruct (childs e OPERAND); [discriminate|injection O as ->; now left]).
      apply in_childs in Hin as [Hin _]. now apply children_parent.
    - split; [exact K|]. exists t. split; [exact H1|]. rewrite H2. cbn. tauto.
  Qed.
  Lemma gives_iff e : InTree tree e -> forall ts,
    ekind e = PLAIN_INSTR /\ Gives src e ts <-> resolve_type src tb e = Ans ts.
  Proof.
    intros T ts. unfold resolve_type. destruct (kind_eqb (ekind e) PLAIN_INSTR) eqn:K.
    2:{ split; [|discriminate]. intros [X _]. rewrite X in K. discriminate. }
    apply kind_eqb_eq in K.
    assert (X : Gives src e ts <-> abind (aopt (instr_name_of e)) (fun nm =>
      if text_eqb nm (Text.T "call") then
        abind (aopt (hd_error (operands e))) (fun i => abind (aopt (first_def tb i)) (fun f =>
        abind (get_func_sig src tb f) (fun sg => Ans (map OVal (sig_results sg)))))
      else if text_eqb nm (Text.T "local.get") then
        abind (aopt (hd_error (operands e))) (fun i => abind (aopt (find_param_or_local_def tb (key_of i))) (fun s =>
        abind (aopt (extract_type (s_green s))) (fun t => Ans [OVal t])))
      else if text_eqb nm (Text.T "global.get") then
        abind (aopt (hd_error (operands e))) (fun i => abind (aopt (first_def tb i)) (fun s =>
        abind (aopt (extract_global_type (s_green s))) (fun t => Ans [OVal t])))
      else abind (aopt (meta_of nm)) (fun m => Ans (m_results m))) = Ans ts); [|rewrite <- X; tauto].
    destruct (instr_name_of e) as [nm|] eqn:Nm; cbn [aopt abind].
    2:{ split; [|discriminate]. intros [o f ps' rs H|o w f d t H|o g t H|x m H]; apply called_iff in H; congruence. }
    apply called_iff in Nm.
    destruct (text_eqb nm (Text.T "call")) eqn:Ec; [|destruct (text_eqb nm (Text.T "local.get")) eqn:El; [|destruct (text_eqb nm (Text.T "global.get")) eqn:Eg]].
    - apply text_eqb_eq in Ec. subst nm. split.
      + intros [o f ps rs _ O M F|o w f d t H|o g t H|x m H H2]; try (pose proof (called_fun e _ _ Nm H); discriminate).
        2:{ rewrite <- (called_fun e _ _ Nm H) in H2. destruct H2. now left. }
        destruct (operand_in e o T O) as (To & No). pose proof (def_ptr o f To No M) as Pf.
        destruct (first_def_means o f To No M) as (s & Fd & Hs & Ks & Gs & _ & _ & _).
        unfold operands. unfold FirstOperand in O. rewrite O. cbn [aopt abind]. rewrite Fd. cbn [aopt abind].
        destruct (proj1 (func_sig_iff f s Pf Ks Gs ps rs) F) as (sg & -> & -> & ->). reflexivity.
      + intros H. destruct (hd_error (operands e)) as [o|] eqn:O; cbn [aopt abind] in H; [|discriminate].
        destruct (operand_in e o T O) as (To & No). destruct (first_def tb o) as [s|] eqn:Fd; cbn [aopt abind] in H; [|discriminate].
        destruct (first_def_some o s To No Fd) as (f & M). pose proof (def_ptr o f To No M) as Pf.
        destruct (first_def_means o f To No M) as (s' & Fd' & Hs & Ks & Gs & _ & _ & _). rewrite Fd in Fd'. injection Fd' as <-.
        destruct (get_func_sig src tb s) as [sg| |] eqn:Sg; cbn [abind] in H; try discriminate. injection H as <-.
        eapply Gives_call; [exact Nm|exact O|exact M|]. apply (func_sig_iff f s Pf Ks Gs). eauto.
    - apply text_eqb_eq in El. subst nm. split.
      + intros [o f ps rs H|o w f d t _ O W F Tf D S|o g t H|x m H H2]; try (pose proof (called_fun e _ _ Nm H); discriminate).
        2:{ rewrite <- (called_fun e _ _ Nm H) in H2. destruct H2. cbn. tauto. }
        destruct (operand_in e o T O) as (To & No). pose proof (local_asks e o T K Nm O) as A.
        unfold operands. unfold FirstOperand in O. rewrite O. cbn [aopt abind].
        rewrite (find_local_def_spec src o w f To No A W (enclosing_func src o f To No F Tf)).
        rewrite <- slot_find_target in D. destruct (find (slot_matches w) (enum 0 (locals_space f))) as [p|] eqn:Fp; [|discriminate].
        cbn in D. injection D as <-. cbn [option_map aopt abind slot_symbol s_green].
        pose proof (find_enum_in w f p Fp) as Hp. rewrite locals_space_slots in Hp.
        destruct (slot_facts src f (snd p) Tf (proj1 F) Hp) as (Td & Nd & Kd & _).
        assert (E : extract_type (el (snd p)) = Some t) by (apply slot_type; auto; cbn in Kd |- *; intuition congruence).
        rewrite E. reflexivity.
      + intros H. destruct (hd_error (operands e)) as [o|] eqn:O; cbn [aopt abind] in H; [|discriminate].
        destruct (operand_in e o T O) as (To & No). pose proof (local_asks e o T K Nm O) as A.
        destruct (find_param_or_local_def tb (key_of o)) as [s|] eqn:Fd; cbn [aopt abind] in H; [|discriminate].
        assert (Y : exists w f, Written o w /\ enclosing [MODULE_FIELD_FUNC] o = Some f).
        { unfold find_param_or_local_def in Fd. destruct (find_local_ref tb (key_of o)) as [r|] eqn:Fr; [|discriminate].
          unfold find_local_ref in Fr. apply find_some in Fr as [R1 R2]. apply andb_prop in R2 as [R2 R3].
          assert (R4 : is_ref_kind r = true) by (unfold is_ref_kind; destruct (s_kind r); try discriminate; reflexivity).
          apply key_eqb_eq in R3. destruct (ref_found src o r To No R1 R3 R4) as (a & w & f & A' & W & E & ->).
          pose proof (asks_fun o _ _ A A') as <-. eauto. }
        destruct Y as (w & f & W & E). destruct (enclosing_kind src MODULE_FIELD_FUNC o f To No E) as (Tf & Nf & Kf & Df).
        rewrite (find_local_def_spec src o w f To No A W E) in Fd.
        destruct (find (slot_matches w) (enum 0 (locals_space f))) as [p|] eqn:Fp; [|discriminate]. injection Fd as <-.
        cbn [slot_symbol s_green] in H. destruct (extract_type (el (snd p))) as [t|] eqn:X; cbn [aopt abind] in H; [|discriminate]. injection H as <-.
        eapply Gives_local with (d := snd p); [exact Nm|exact O|exact W|split; [exact Kf|split; [exact Nf|exact Df]]|exact Tf|rewrite <- slot_find_target, Fp; reflexivity|].
        pose proof (find_enum_in w f p Fp) as Hp. rewrite locals_space_slots in Hp.
        destruct (slot_facts src f (snd p) Tf Kf Hp) as (Td & Nd & Kd & _). apply slot_type; auto. cbn in Kd |- *. intuition congruence.
    - apply text_eqb_eq in Eg. subst nm. split.
      + intros [o f ps rs H|o w f d t H|o g t _ O M G|x m H H2]; try (pose proof (called_fun e _ _ Nm H); discriminate).
        2:{ rewrite <- (called_fun e _ _ Nm H) in H2. destruct H2. cbn. tauto. }
        destruct (operand_in e o T O) as (To & No).
        destruct (first_def_means o g To No M) as (s & Fd & Hs & Ks & Gs & Tg & _ & _).
        unfold operands. unfold FirstOperand in O. rewrite O. cbn [aopt abind]. rewrite Fd. cbn [aopt abind].
        rewrite Gs, (proj2 (global_type g Tg t) G). reflexivity.
      + intros H. destruct (hd_error (operands e)) as [o|] eqn:O; cbn [aopt abind] in H; [|discriminate].
        destruct (operand_in e o T O) as (To & No). destruct (first_def tb o) as [s|] eqn:Fd; cbn [aopt abind] in H; [|discriminate].
        destruct (first_def_some o s To No Fd) as (g & M).
        destruct (first_def_means o g To No M) as (s' & Fd' & Hs & Ks & Gs & Tg & _ & _). rewrite Fd in Fd'. injection Fd' as <-.
        rewrite Gs in H. destruct (extract_global_type (el g)) as [t|] eqn:X; cbn [aopt abind] in H; [|discriminate]. injection H as <-.
        apply Gives_global with o g; auto. now apply global_type.
    - assert (Hn : ~ In nm (map Text.T ["call"; "local.get"; "global.get"]%string)).
      { cbn [map In]. intros [<-|[<-|[<-|[]]]]; rewrite text_eqb_refl in *; discriminate. }
      split.
      + intros [o f ps rs H|o w f d t H|o g t H|x m H H2 R]; try (exfalso; apply Hn; rewrite (called_fun e _ _ Nm H); cbn; tauto).
        rewrite (called_fun e _ _ Nm H). apply meta_row in R. now rewrite R.
      + intros H. destruct (meta_of nm) as [m|] eqn:R; cbn [aopt abind] in H; [|discriminate]. injection H as <-.
        apply meta_row in R. now apply Gives_row with nm.
  Qed.
  Lemma yields_iff e : InTree tree e -> forall ts,
    Yields src e ts <-> exists r, catch (resolve_type src tb e) = Ans r /\ ts = match r with Some x => x | None => [] end.
  Proof.
    intros T ts. unfold Yields. pose proof (resolve_type_total src e) as Tot. split.
    - intros [H|[H ->]].
      + apply (gives_iff e T) in H. rewrite H. eexists. split; [reflexivity|reflexivity].
      + destruct (resolve_type src tb e) as [ts'| |] eqn:R; cbn [catch].
        * exfalso. apply (gives_iff e T) in R as [R1 R2]. now apply (H R1 ts').
        * eexists. split; reflexivity.
        * congruence.
    - intros (r & H & ->). destruct (resolve_type src tb e) as [ts'| |] eqn:R; cbn [catch] in H; try discriminate; injection H as <-.
      + left. now apply gives_iff.
      + right. split; [|reflexivity]. intros K ts' G. assert (X := proj1 (gives_iff e T ts') (conj K G)). congruence.
  Qed.
End Doc.
