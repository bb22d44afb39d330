(** Property C43: a module or module field after the directive comment keeps
    its text. *)

From Coq Require Import String List NArith Bool Arith Lia.
From Verif Require Import Text Kind Green SpecParser SpecSyntax SpecFormat Lexer Winnow Grammar
  Red LineIndex Cursor Doc Nav Action Format FmtPieces FmtSteps FmtTrivia FmtRun FmtNode FmtRequest.
Import ListNotations.

(** ** The lines of a text *)

Definition joined (lb : text) (l : list text) : text :=
  match l with [] => [] | a :: l => a ++ concat (map (fun x => lb ++ x) l) end.

Lemma split_lf_spec t : let '(a, l) := split_lf t in joined [c_lf] (a :: l) = t /\ Forall (fun x => ~ In c_lf x) (a :: l).
Proof.
  induction t as [|c t IH]; cbn [split_lf].
  - split; [reflexivity|]. constructor; [intros []|constructor].
  - destruct (split_lf t) as [a l]. destruct IH as [E H]. destruct (N.eqb_spec c c_lf) as [Ec|Hc]; subst.
    + cbn [joined map concat app] in *. split; [reflexivity|]. constructor; [intros []|exact H].
    + cbn [joined app] in *. split; [reflexivity|]. inversion H as [|? ? H1 H2]; subst.
      constructor; [|exact H2]. intros [Hx|Hx]; [now apply Hc|now apply H1].
Qed.

Lemma SL_line lb a t u : ~ In c_lf a -> (forall x, a <> x ++ [c_cr] \/ forall r, t <> c_lf :: r) ->
  SameLines lb t u -> SameLines lb (a ++ t) (a ++ u).
Proof.
  intros Ha Hc H. induction a as [|c a IH]; [exact H|]. cbn [app]. constructor.
  - intros ->. apply Ha. now left.
  - intros -> r E. destruct a as [|d a].
    + cbn [app] in E. destruct (Hc []) as [X|X]; [now apply X|now apply (X r)].
    + cbn [app] in E. injection E as -> _. apply Ha. right. now left.
  - apply IH; [intros X; apply Ha; now right|]. intros x. destruct (Hc (c :: x)) as [X|X]; [|now right].
    left. intros E. apply X. cbn. now rewrite E.
Qed.

Lemma drop_cr_cases a : (drop_cr a = a /\ forall x, a <> x ++ [c_cr]) \/ a = drop_cr a ++ [c_cr].
Proof.
  unfold drop_cr. destruct (rev a) as [|c r] eqn:E.
  - left. split; [reflexivity|]. intros x ->. rewrite rev_app_distr in E. discriminate.
  - apply (f_equal (@rev _)) in E. rewrite rev_involutive in E. cbn [rev] in E.
    destruct (N.eqb_spec c c_cr) as [Ec|Hc]; [subst c; now right|]. left. split; [reflexivity|].
    intros x E2. rewrite E in E2. apply app_inj_tail in E2 as [_ E2]. congruence.
Qed.

(** The lines of a text that does not end with a line feed. *)
Lemma lines_same lb t : (forall x, t <> x ++ [c_lf]) -> SameLines lb t (joined lb (str_lines t)).
Proof.
  intros Hend. unfold str_lines. pose proof (split_lf_spec t) as H. destruct (split_lf t) as [a l].
  destruct H as [E H]. subst t. destruct (exists_last (l := a :: l) ltac:(discriminate)) as (b & z & Ez).
  rewrite Ez in *. rewrite rev_app_distr. cbn [rev app]. rewrite rev_involutive.
  assert (Hz : z = [] -> b = []).
  { intros ->. destruct b as [|y b] using rev_ind; [reflexivity|]. exfalso.
    apply (Hend (joined [c_lf] (b ++ [y]))). clear. destruct b as [|x b]; cbn [app joined map concat]; [now rewrite !app_nil_r|].
    rewrite !map_app, !concat_app. cbn [map concat app]. rewrite <- !app_assoc. cbn [app]. now rewrite ?app_nil_r. }
  clear Hend Ez a l.
  destruct b as [|y b].
  - cbn [app map]. assert (X : joined lb (if nilb z then [] else [z]) = z ++ []) by (destruct z; cbn; now rewrite ?app_nil_r).
    rewrite X. cbn [joined app map concat]. inversion H; subst. apply SL_line; [assumption|right; discriminate|constructor].
  - assert (Hn : nilb z = false) by (destruct z; [specialize (Hz eq_refl); discriminate|reflexivity]).
    rewrite Hn. clear Hz Hn. revert y H. induction b as [|x b IH]; intros y H.
    + cbn [app map joined concat]. rewrite !app_nil_r. inversion H as [|? ? H1 H2]; subst. inversion H2; subst.
      assert (Z : SameLines lb z z).
      { assert (X : SameLines lb (z ++ []) (z ++ [])) by (apply SL_line; [assumption|right; discriminate|constructor]).
        now rewrite app_nil_r in X. }
      destruct (drop_cr_cases y) as [[-> Hy]|Hy].
      * apply SL_line; auto. cbn [app]. now constructor.
      * rewrite Hy at 1. rewrite <- app_assoc. apply SL_line; [intros X; apply H1; rewrite Hy; apply in_or_app; now left|right; discriminate|].
        cbn [app]. now constructor.
    + cbn [app map joined concat]. inversion H as [|? ? H1 H2]; subst. specialize (IH x H2).
      cbn [app map joined concat] in IH. rewrite <- !app_assoc.
      destruct (drop_cr_cases y) as [[-> Hy]|Hy].
      * apply SL_line; auto. cbn [app]. now constructor.
      * rewrite Hy at 1. rewrite <- app_assoc. apply SL_line; [intros X; apply H1; rewrite Hy; apply in_or_app; now left|right; discriminate|].
        cbn [app]. now constructor.
Qed.

(** ** Documents inside documents *)

Inductive Inside (ds : list doc) : doc -> Prop :=
| In_list a b : Inside ds (DList (a ++ ds ++ b))
| In_elem a b d : Inside ds d -> Inside ds (DList (a ++ d :: b))
| In_nest n d : Inside ds d -> Inside ds (DNest n d).

Section Print.
  Variable y : layout.

  Fixpoint print_list (l : list doc) (n : nat) (rest : list (nat * doc)) (col : nat) : text * nat :=
    match l with
    | [] => ([], col)
    | d :: r =>
        let '(t, c1) := print_doc y d n (map (pair n) r ++ rest) col in
        let '(t', c2) := print_list r n rest c1 in
        (t ++ t', c2)
    end.
  Lemma print_list_ok l n rest col : print_doc y (DList l) n rest col = print_list l n rest col.
  Proof.
    cbn [print_doc]. revert col. induction l as [|d l IH]; intros col; [reflexivity|]. cbn [print_list].
    destruct (print_doc y d n (map (pair n) l ++ rest) col). now rewrite IH.
  Qed.
  Lemma print_list_app a b n rest col : exists c,
    fst (print_list (a ++ b) n rest col) = fst (print_list a n (map (pair n) b ++ rest) col) ++ fst (print_list b n rest c).
  Proof.
    revert col. induction a as [|d a IH]; intros col; [exists col; reflexivity|]. cbn [app print_list].
    rewrite map_app, <- app_assoc. destruct (print_doc y d n _ col) as [t c1]. destruct (IH c1) as (c & E). exists c.
    destruct (print_list (a ++ b) n rest c1). destruct (print_list a n _ c1). cbn [fst] in *. rewrite E. now rewrite app_assoc.
  Qed.

  Lemma Inside_print ds d : Inside ds d -> forall n rest col, exists a b n' rest' col',
    fst (print_doc y d n rest col) = a ++ fst (print_list ds n' rest' col') ++ b.
  Proof.
    induction 1 as [a b|a b d _ IH|m d _ IH]; intros n rest col.
    - rewrite print_list_ok. destruct (print_list_app a (ds ++ b) n rest col) as (c & ->).
      destruct (print_list_app ds b n rest c) as (c2 & ->). eauto 10.
    - rewrite print_list_ok. destruct (print_list_app a (d :: b) n rest col) as (c & ->). cbn [print_list].
      destruct (IH n (map (pair n) b ++ rest) c) as (x & z & n' & r' & c' & E).
      destruct (print_doc y d n _ c) as [t c1]. destruct (print_list b n rest c1) as [t' c2]. cbn [fst] in *. subst t.
      exists (fst (print_list a n (map (pair n) (d :: b) ++ rest) col) ++ x), (z ++ t'), n', r', c'. now rewrite <- !app_assoc.
    - cbn [print_doc]. apply IH.
  Qed.

  Lemma reflow_text t n rest col : fst (print_list (reflow t) n rest col) = joined (line_break y) (str_lines t).
  Proof.
    unfold reflow. destruct (str_lines t) as [|a l]; [reflexivity|]. cbn [print_list print_doc].
    generalize (col + measure y a) as c. intros c.
    assert (X : forall l c, fst (print_list (flat_map (fun x => [DEmptyLine; DText x]) l) n rest c)
      = concat (map (fun x => line_break y ++ x) l)).
    { clear. induction l as [|x l IH]; intros c; [reflexivity|]. cbn [flat_map app print_list print_doc].
      specialize (IH (c + measure y x)). destruct (print_list (flat_map _ l) n rest _). cbn [fst map concat] in *.
      rewrite IH. now rewrite <- app_assoc. }
    specialize (X l c). destruct (print_list (flat_map _ l) n rest c). cbn [fst joined] in *. now rewrite X.
  Qed.
End Print.

(** ** Directives *)

Lemma white_is c : White c -> is_whitespace c = true.
Proof.
  unfold White, is_whitespace, in_range, char_in. intros [[[H1 H2]|[H1 H2]]|H].
  - apply N.leb_le in H1, H2. now rewrite H1, H2.
  - apply N.leb_le in H1, H2. rewrite H1, H2. now rewrite !orb_true_r.
  - replace (existsb _ _) with true; [now rewrite !orb_true_r|]. symmetry. apply existsb_exists. exists c.
    split; [exact H|apply N.eqb_refl].
Qed.

(** The directive is not empty and does not start with white space. *)
Definition Word (d : text) : Prop := exists c r, d = c :: r /\ ~ White c.

Lemma not_white c : ~ White c -> is_whitespace c = false.
Proof.
  intros H. destruct (is_whitespace c) eqn:E; [|reflexivity]. exfalso. apply H.
  destruct (trim_start_spec [c]) as (w & Ew & Hw). cbn [trim_start] in Ew. rewrite E in Ew.
  rewrite app_nil_r in Ew. subst w. now inversion Hw.
Qed.

Lemma directive_ignore o t : Word (directive o) -> Directive (directive o) t ->
  should_ignore o (Some (Tok LINE_COMMENT t)) = true.
Proof.
  intros (c & d & Ed & Hc) (w & r & -> & Hw & Hr). unfold should_ignore.
  assert (P : forall a b, strip_prefix a (a ++ b) = Some b).
  { induction a as [|x a IH]; intros b; [reflexivity|]. cbn [app strip_prefix]. now rewrite N.eqb_refl. }
  rewrite P.
  assert (Tr : trim_start (w ++ directive o ++ r) = directive o ++ r).
  { induction Hw as [|x w Hx _ IH].
    - rewrite Ed. cbn [app trim_start]. now rewrite (not_white c Hc).
    - cbn [app trim_start]. now rewrite (white_is x Hx). }
  rewrite Tr, P. destruct Hr as [->|(x & r' & -> & Hx)]; [reflexivity|].
  repeat (destruct Hx as [<-|Hx]; [reflexivity|]). destruct Hx.
Qed.

(** ** What is printed after a directive *)

Section Opts.
  Variable o : options.

  (** [i] stands two places after the directive. *)
  Lemma items_prev outer : forall pre p1 p2 a x g post,
    exists its1 d its2, items o outer p1 p2 (pre ++ a :: x :: g :: post)
      = its1 ++ mk_item g d post (Some a) :: its2.
  Proof.
    induction pre as [|c pre IH]; intros p1 p2 a x g post.
    - cbn [app items or_else]. eexists [_; _], _, _. reflexivity.
    - cbn [app items]. destruct (IH (Some c) p1 a x g post) as (i1 & d & i2 & ->).
      eexists (_ :: i1), d, i2. reflexivity.
  Qed.

  Lemma root_inside its1 k cs d post a its2 : should_ignore o (Some a) = true -> forall prev first,
    exists u v, root_docs o prev first (its1 ++ mk_item (Node k cs) d post (Some a) :: its2)
      = u ++ reflow (gtext (Node k cs)) ++ v.
  Proof.
    intros Hi. induction its1 as [|i l IH]; intros prev first; cbn [app root_docs].
    - cbn [i_el i_prev]. rewrite Hi. exists []. eexists. reflexivity.
    - destruct (IH (gkind (i_el i)) false) as (u & v & ->). eexists (_ ++ u), v. now rewrite <- app_assoc.
  Qed.
  Lemma root_elem its1 ms d post p its2 : should_ignore o p = false -> forall prev first,
    exists u v, root_docs o prev first (its1 ++ mk_item (Node MODULE ms) d post p :: its2) = u ++ d :: v.
  Proof.
    intros Hi. induction its1 as [|i l IH]; intros prev first; cbn [app root_docs].
    - cbn [i_el i_prev i_doc]. rewrite Hi, (proj2 (kind_eqb_eq MODULE MODULE) eq_refl). exists []. eexists. reflexivity.
    - destruct (IH (gkind (i_el i)) false) as (u & v & ->). eexists (_ ++ u), v. now rewrite <- app_assoc.
  Qed.

  Lemma emit_grows s paren l : forall first st, exists x, fst (emit_all o s paren first l st) = fst st ++ x.
  Proof.
    induction l as [|i l IH]; intros first [docs tr]; cbn [emit_all]; [exists []; now rewrite app_nil_r|].
    unfold emit. destruct (IH false (docs ++ lead_docs o (s_lead s) paren first docs tr i ++ content o s i, after o i)) as (x & ->).
    cbn [fst]. eexists. now rewrite <- app_assoc.
  Qed.
  Lemma emit_inside s paren l : forall first st i, In i l ->
    exists u v, fst (emit_all o s paren first l st) = u ++ content o s i ++ v.
  Proof.
    induction l as [|j l IH]; intros first st i; [intros []|]. cbn [emit_all]. intros [->|Hin].
    - destruct st as [docs tr]. unfold emit.
      destruct (emit_grows s paren l false (docs ++ lead_docs o (s_lead s) paren first docs tr i ++ content o s i, after o i)) as (x & ->).
      cbn [fst]. exists (docs ++ lead_docs o (s_lead s) paren first docs tr i), x. now rewrite <- !app_assoc.
    - apply IH, Hin.
  Qed.

  Lemma module_inside outer pre c x k gs post :
    should_ignore o (Some (Tok LINE_COMMENT c)) = true -> In k field_kinds ->
    Inside (reflow (gtext (Node k gs))) (gdoc o outer (Node MODULE (pre ++ Tok LINE_COMMENT c :: x :: Node k gs :: post))).
  Proof.
    intros Hi Hk. rewrite gdoc_node. destruct (items_prev outer pre None None (Tok LINE_COMMENT c) x (Node k gs) post) as (i1 & d & i2 & E).
    rewrite E. set (its := i1 ++ _ :: i2). unfold node_doc. cbn [gkind]. change (kind_eqb MODULE ROOT) with false. cbv iota.
    cbn [shape_of]. unfold Format.form. cbn [shape_doc]. unfold run_parts. cbn [fold_left].
    match goal with |- context [run_part o its (Nested false ?l) ?s] => set (st := s); set (steps := l) end.
    destruct st as [docs tr]. unfold run_part. cbn [negb orb].
    unfold run_steps, steps. cbn [fold_left]. unfold run_step at 1.
    set (fs := Step (SNode field_kinds) Each LField None).
    assert (Hin : In (mk_item (Node k gs) d post (Some (Tok LINE_COMMENT c))) (choose fs its)).
    { unfold choose. cbn [s_mode fs s_sel]. apply filter_In. split; [apply in_elt|]. cbn [i_el selects].
      apply existsb_exists. exists k. split; [exact Hk|now apply kind_eqb_eq]. }
    destruct (emit_inside fs (has_item (STok L_PAREN) its) (choose fs its) true ([], tr) _ Hin) as (u & v & Eu).
    destruct (emit_all o fs (has_item (STok L_PAREN) its) true (choose fs its) ([], tr)) as [inner tr'].
    cbn [fst] in Eu. subst inner. unfold content. cbn [fs s_lit s_lead i_prev]. rewrite Hi. cbn [i_el close].
    rewrite <- app_assoc. cbn [app]. apply In_elem. apply In_nest. apply In_list.
  Qed.
End Opts.

(** The line end the formatter writes. *)
Definition line_end (s : settings) : text := if f_crlf s then [c_cr; c_lf] else [c_lf].

(** A module directly after the directive comment keeps its text. *)
Theorem C43_module_verbatim s pre c w k ms post :
  Word (directive (f_options s)) -> Directive (directive (f_options s)) c ->
  (forall x, gtext (Node k ms) <> x ++ [c_lf]) ->
  exists u, SameLines (line_end s) (gtext (Node k ms)) u
    /\ Occurs u (format s (Node ROOT (pre ++ Tok LINE_COMMENT c :: w :: Node k ms :: post))).
Proof.
  intros Hw Hd He. eexists. split; [apply (lines_same (line_break (layout_of s))), He|]. unfold format, print. rewrite gdoc_node. unfold node_doc.
  cbn [gkind]. rewrite (proj2 (kind_eqb_eq ROOT ROOT) eq_refl). unfold root_doc.
  destruct (items_prev (f_options s) None pre None None (Tok LINE_COMMENT c) w (Node k ms) post) as (i1 & d & i2 & ->).
  destruct (root_inside (f_options s) i1 k ms d post _ i2 (directive_ignore _ _ Hw Hd) WHITESPACE true) as (u & v & ->).
  pose proof (In_list (reflow (gtext (Node k ms))) u (v ++ [DNewLine])) as HI.
  replace (u ++ reflow (gtext (Node k ms)) ++ v ++ [DNewLine]) with ((u ++ reflow (gtext (Node k ms)) ++ v) ++ [DNewLine]) in HI
    by (now rewrite <- !app_assoc).
  destruct (Inside_print (layout_of s) _ _ HI 0 [] 0) as (a & b & n' & r' & c' & E).
  rewrite E, reflow_text. exists a, b. reflexivity.
Qed.

(** So does a field of a module that is itself formatted. *)
Theorem C43_field_verbatim s mpre mpost pre c w k gs post :
  Word (directive (f_options s)) -> Directive (directive (f_options s)) c -> In k field_kinds ->
  (forall x, gtext (Node k gs) <> x ++ [c_lf]) ->
  (forall t, In (Tok LINE_COMMENT t) mpre -> ~ Directive (directive (f_options s)) t) ->
  exists u, SameLines (line_end s) (gtext (Node k gs)) u
    /\ Occurs u (format s (Node ROOT (mpre ++ Node MODULE (pre ++ Tok LINE_COMMENT c :: w :: Node k gs :: post) :: mpost))).
Proof.
  intros Hw Hd Hk He Hm. eexists. split; [apply (lines_same (line_break (layout_of s))), He|]. unfold format, print. rewrite gdoc_node. unfold node_doc.
  cbn [gkind]. rewrite (proj2 (kind_eqb_eq ROOT ROOT) eq_refl). unfold root_doc.
  set (m := Node MODULE _).
  assert (X : forall l p1 p2, (forall t, p1 = Some (Tok LINE_COMMENT t) -> ~ Directive (directive (f_options s)) t) ->
    (forall t, p2 = Some (Tok LINE_COMMENT t) -> ~ Directive (directive (f_options s)) t) ->
    (forall t, In (Tok LINE_COMMENT t) l -> ~ Directive (directive (f_options s)) t) ->
    exists i1 p i2, items (f_options s) None p1 p2 (l ++ m :: mpost)
      = i1 ++ mk_item m (gdoc (f_options s) p m) mpost p :: i2 /\ should_ignore (f_options s) p = false).
  { clear. induction l as [|e l IH]; intros p1 p2 H1 H2 H3.
    - cbn [app items]. exists [], p2, (items (f_options s) None (Some m) p1 mpost). split.
      + destruct p2; reflexivity.
      + destruct (should_ignore (f_options s) p2) eqn:E; [|reflexivity]. exfalso.
        destruct p2 as [[kt t|]|]; try discriminate E. destruct kt; try discriminate E.
        apply (H2 t eq_refl). now apply ignore_directive.
    - cbn [app items]. destruct (IH (Some e) p1) as (i1 & p & i2 & -> & Hp).
      + intros t Et. injection Et as ->. apply H3. now left.
      + exact H1.
      + intros t Ht. apply H3. now right.
      + eexists (_ :: i1), p, i2. split; [reflexivity|exact Hp]. }
  destruct (X mpre None None ltac:(discriminate) ltac:(discriminate) Hm) as (i1 & p & i2 & -> & Hp).
  unfold m at 1. destruct (root_elem (f_options s) i1 (pre ++ Tok LINE_COMMENT c :: w :: Node k gs :: post) (gdoc (f_options s) p m) mpost p i2 Hp WHITESPACE true) as (u & v & ->).
  assert (HI : Inside (reflow (gtext (Node k gs))) (DList ((u ++ gdoc (f_options s) p m :: v) ++ [DNewLine]))).
  { rewrite <- app_assoc. cbn [app]. apply In_elem. apply module_inside; [now apply directive_ignore|exact Hk]. }
  destruct (Inside_print (layout_of s) _ _ HI 0 [] 0) as (a & b & n' & r' & c' & E).
  rewrite E, reflow_text. exists a, b. reflexivity.
Qed.

(** ** Cases *)

Definition lines_of (l : list string) : text := flat_map (fun x => Text.T x ++ [c_lf]) l.
Lemma tick : Word (Text.T "fmt-ignore").
Proof. exists 102%N, (Text.T "mt-ignore"). split; [reflexivity|]. unfold White. cbn. intros [[H|H]|H]; [lia|lia|]. repeat (destruct H as [H|H]; [discriminate H|]). destruct H. Qed.
Lemma tick_comment : Directive (Text.T "fmt-ignore") (Text.T ";; fmt-ignore").
Proof. exists [32%N], []. split; [reflexivity|]. split; [constructor; [unfold White; cbn; tauto|constructor]|now left]. Qed.

Definition last_char (t : text) : N := List.last t 0%N.
Lemma last_char_ok t : N.eqb (last_char t) c_lf = false -> forall x, t <> x ++ [c_lf].
Proof. intros H x ->. unfold last_char in H. rewrite last_last in H. discriminate. Qed.

Definition module_src : text := lines_of [";; fmt-ignore"; "(module"; "    ( func) )"]%string.
Example C43_module_case : exists w ms post,
  parse false module_src = Parsed (Node ROOT ([] ++ Tok LINE_COMMENT (Text.T ";; fmt-ignore") :: w :: Node MODULE ms :: post)) []
  /\ (forall x, gtext (Node MODULE ms) <> x ++ [c_lf]) /\ count_lf (gtext (Node MODULE ms)) = 1
  /\ Word (directive (f_options (request_settings 2 true))).
Proof.
  assert (H : match parse false module_src with
    | Parsed (Node k0 (Tok k1 c :: w :: Node k2 ms :: post)) [] =>
        kind_eqb k0 ROOT && kind_eqb k1 LINE_COMMENT && kind_eqb k2 MODULE
        && text_eqb c (Text.T ";; fmt-ignore") && negb (N.eqb (last_char (gtext (Node MODULE ms))) c_lf)
        && Nat.eqb (count_lf (gtext (Node MODULE ms))) 1
    | _ => false end = true) by (vm_compute; reflexivity).
  destruct (parse false module_src) as [[|k0 [|[k1 c|] [|w [|[|k2 ms] post]]]] [|]| |]; try discriminate H.
  rewrite !andb_true_iff in H. destruct H as [[[[[H4 H5] H6] H1] H2] H3].
  apply text_eqb_eq in H1. apply kind_eqb_eq in H4, H5, H6. subst.
  exists w, ms, post. split; [reflexivity|]. split; [|split].
  - apply last_char_ok. now destruct (N.eqb _ _).
  - now apply Nat.eqb_eq.
  - exact tick.
Qed.

Definition field_src : text := lines_of ["(module"; "  ;; fmt-ignore"; "  (func"; "      nop )"; "  (func nop))"]%string.
Example C43_field_case : exists pre w gs post mpost,
  parse false field_src = Parsed (Node ROOT ([] ++ Node MODULE (pre ++ Tok LINE_COMMENT (Text.T ";; fmt-ignore") :: w
    :: Node MODULE_FIELD_FUNC gs :: post) :: mpost)) []
  /\ (forall x, gtext (Node MODULE_FIELD_FUNC gs) <> x ++ [c_lf]) /\ In MODULE_FIELD_FUNC field_kinds
  /\ gtext (Node MODULE_FIELD_FUNC gs) = Text.T "(func" ++ [c_lf] ++ Text.T "      nop )".
Proof.
  assert (H : match parse false field_src with
    | Parsed (Node k0 (Node k1 (p1 :: p2 :: p3 :: Tok k2 c :: w :: Node k3 gs :: post) :: mpost)) [] =>
        kind_eqb k0 ROOT && kind_eqb k1 MODULE && kind_eqb k2 LINE_COMMENT && kind_eqb k3 MODULE_FIELD_FUNC
        && text_eqb c (Text.T ";; fmt-ignore")
        && text_eqb (gtext (Node MODULE_FIELD_FUNC gs)) (Text.T "(func" ++ [c_lf] ++ Text.T "      nop )")
    | _ => false end = true) by (vm_compute; reflexivity).
  destruct (parse false field_src)
    as [[|k0 [|[|k1 [|p1 [|p2 [|p3 [|[k2 c|] [|w [|[|k3 gs] post]]]]]]] mpost]] [|]| |]; try discriminate H.
  rewrite !andb_true_iff in H. destruct H as [[[[[H3 H4] H5] H6] H1] H2].
  apply text_eqb_eq in H1, H2. apply kind_eqb_eq in H3, H4, H5, H6. subst.
  exists [p1; p2; p3], w, gs, post, mpost. split; [reflexivity|]. rewrite H2. split; [|split; [cbn; tauto|reflexivity]].
  apply last_char_ok. vm_compute. reflexivity.
Qed.

(** Range formatting does not look for the directive: it formats the field
    that [format] leaves alone. *)
Theorem C43_range_refuted : exists tree,
  parse false field_src = Parsed tree []
  /\ range_formatting (request_settings 2 true) (new_line_index field_src) tree ((2, 2), (3, 11))
     = Ans [(((2, 2), (3, 11)), Text.T "(func" ++ [c_lf] ++ Text.T "    nop)")].
Proof.
  exists (match parse false field_src with Parsed t _ => t | _ => Node ROOT [] end). split; vm_compute; reflexivity.
Qed.
