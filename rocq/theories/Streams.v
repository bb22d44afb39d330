(** What the next tokens of a stream can be, for the trees of
    [SpecComplete.v]. *)

From Coq Require Import String List NArith Bool Arith Lia.
From Verif Require Import Text Kind Green SpecParser SpecComplete LexAccept TokAccept.
Import ListNotations.
Local Open Scope list_scope.

(** ** Heads: the next symbol, and behind a parenthesis the one after it *)
Inductive head : Type := H1 (s : sym) | H2 (s : sym).

Definition first (ts : list (kind * text)) : sym :=
  match skip ts with [] => SEnd | x :: _ => sym1 x end.
Definition second (ts : list (kind * text)) : sym :=
  match skip ts with [] => SEnd | _ :: r => first r end.
Definition sees (ts : list (kind * text)) (h : head) : Prop :=
  match h with H1 s => first ts = s | H2 s => first ts = SL /\ second ts = s end.
Definition cls (ts : list (kind * text)) : head :=
  match first ts with SL => H2 (second ts) | s => H1 s end.
Definition hsym (h : head) : sym := match h with H1 s => s | H2 _ => SL end.

Lemma sees_cls ts : sees ts (cls ts).
Proof. unfold cls. destruct (first ts) eqn:E; try exact E. split; [exact E|reflexivity]. Qed.
Lemma sees_hsym ts h : sees ts h -> first ts = hsym h.
Proof. destruct h; [auto|intros [H _]; exact H]. Qed.
Lemma hsym_cls ts : hsym (cls ts) = first ts.
Proof. symmetry. apply sees_hsym, sees_cls. Qed.
Lemma first_skip ts : first (skip ts) = first ts.
Proof. unfold first. now rewrite skip_skip. Qed.
Lemma second_skip ts : second (skip ts) = second ts.
Proof. unfold second. now rewrite skip_skip. Qed.
Lemma sees_skip ts h : sees ts h -> sees (skip ts) h.
Proof. destruct h; cbn [sees]; now rewrite ?first_skip, ?second_skip. Qed.
Lemma cls_skip ts : cls (skip ts) = cls ts.
Proof. unfold cls. now rewrite first_skip, second_skip. Qed.

Definition tight (ts : list (kind * text)) : Prop := skip ts = ts.
Lemma tight_skip ts : tight (skip ts).
Proof. apply skip_skip. Qed.
Lemma tight_cons k t r : is_trivia_kind k = false -> tight ((k, t) :: r).
Proof. intros H. unfold tight. cbn [skip]. now rewrite H. Qed.
Lemma tight_inv k t r : tight ((k, t) :: r) -> is_trivia_kind k = false.
Proof.
  unfold tight. cbn [skip]. destruct (is_trivia_kind k); [|reflexivity]. intros E. exfalso.
  assert (L : forall x, length (skip x) <= length x).
  { induction x as [|[k' t'] x IH]; [auto|]. cbn [skip]. destruct (is_trivia_kind k'); cbn [length]; lia. }
  specialize (L r). rewrite E in L. cbn [length] in L. lia.
Qed.
Lemma skip_trivia_app tr x : Trivia tr -> skip (gtokenss tr ++ x) = skip x.
Proof.
  induction 1 as [|g tr Hg _ IH]; [reflexivity|]. destruct g as [k t|]; [|destruct Hg].
  change (gtokenss (Tok k t :: tr)) with ((k, t) :: gtokenss tr). cbn [app skip]. now rewrite Hg.
Qed.
Lemma lead_tight x : tight x -> lead x = [].
Proof. destruct x as [|[k t] x]; [reflexivity|]. intros H. apply tight_inv in H. cbn [lead]. now rewrite H. Qed.
Lemma lead_trivia_app tr x : Trivia tr -> tight x -> lead (gtokenss tr ++ x) = tr.
Proof.
  intros H Hx. induction H as [|g tr Hg _ IH]; [now apply lead_tight|]. destruct g as [k t|]; [|destruct Hg].
  change (gtokenss (Tok k t :: tr)) with ((k, t) :: gtokenss tr). cbn [app lead]. rewrite Hg. now f_equal.
Qed.
Lemma first_trivia_app tr x : Trivia tr -> first (gtokenss tr ++ x) = first x.
Proof. intros H. unfold first. now rewrite skip_trivia_app. Qed.
Lemma cls_trivia_app tr x : Trivia tr -> cls (gtokenss tr ++ x) = cls x.
Proof. intros H. now rewrite <- cls_skip, skip_trivia_app, cls_skip. Qed.

(** ** Lists of heads *)
Definition bool_eqb := Bool.eqb.
Definition sym_eqb (a b : sym) : bool :=
  match a, b with
  | SEnd, SEnd | SL, SL | SR, SR | SId, SId | SStr, SStr | SInt, SInt | SUInt, SUInt | SMem, SMem
  | SName, SName => true
  | SFlo x, SFlo y => Bool.eqb x y
  | SW x, SW y => text_eqb x y
  | _, _ => false
  end.
Lemma sym_eqb_eq a b : sym_eqb a b = true <-> a = b.
Proof.
  destruct a, b; cbn [sym_eqb]; split; intros H; try congruence; try discriminate.
  - now apply Bool.eqb_prop in H as ->.
  - injection H as ->. apply Bool.eqb_reflx.
  - now apply text_eqb_eq in H as ->.
  - injection H as ->. apply text_eqb_refl.
Qed.
Definition head_eqb (a b : head) : bool :=
  match a, b with H1 x, H1 y | H2 x, H2 y => sym_eqb x y | _, _ => false end.
Lemma head_eqb_eq a b : head_eqb a b = true <-> a = b.
Proof.
  destruct a, b; cbn [head_eqb]; rewrite ?sym_eqb_eq; split; intros H; try congruence; discriminate.
Qed.
Definition hmem (h : head) (l : list head) : bool := existsb (head_eqb h) l.
Lemma hmem_in h l : hmem h l = true <-> In h l.
Proof.
  unfold hmem. rewrite existsb_exists. split.
  - intros (x & Hx & E). now apply head_eqb_eq in E as ->.
  - intros H. exists h. split; [exact H|now apply head_eqb_eq].
Qed.
Fixpoint union (a b : list head) : list head :=
  match a with [] => b | x :: a' => if hmem x b then union a' b else x :: union a' b end.
Lemma in_union h a b : In h (union a b) <-> In h a \/ In h b.
Proof.
  induction a as [|x a IH]; cbn [union]; [cbn; tauto|]. destruct (hmem x b) eqn:E.
  - rewrite IH. apply hmem_in in E. cbn [In]. intuition (subst; auto).
  - cbn [In]. rewrite IH. tauto.
Qed.
Definition hincl (a b : list head) : bool := forallb (fun h => hmem h b) a.
Lemma hincl_in a b h : hincl a b = true -> In h a -> In h b.
Proof. unfold hincl. rewrite forallb_forall. intros H Hh. now apply hmem_in, H. Qed.

(** ** Heads of grammar expressions *)
Definition solo (e : rx) : bool :=
  match e with Kw _ | Float _ => true | Tk k => negb (kind_eqb k L_PAREN) | _ => false end.
Definition SWs (s : string) : sym := SW (T s).
Definition iheads (i : iclass) : list head :=
  match i with
  | IPlain => [H2 SName]
  | IFold => [H2 SName; H2 (SWs "block"); H2 (SWs "loop"); H2 (SWs "if")]
  | IAny => [H2 SName; H2 (SWs "block"); H2 (SWs "loop"); H2 (SWs "if");
             H1 SName; H1 (SWs "block"); H1 (SWs "loop"); H1 (SWs "if")]
  end%string.
Definition kheads (k : kind) : list head :=
  match k with
  | R_PAREN => [H1 SR] | IDENT => [H1 SId] | STRING => [H1 SStr] | INT => [H1 SInt]
  | UNSIGNED_INT => [H1 SUInt] | FLOAT => [H1 (SFlo true); H1 (SFlo false)] | MEM_ARG => [H1 SMem]
  | INSTR_NAME => [H1 SName]
  | _ => map (fun w => H1 (SWs w)) (kwords k)
  end.
Fixpoint heads (e : rx) (F : list head) : option (list head) :=
  match e with
  | Kw s => Some [H1 (SWs s)]
  | Tk k =>
      if kind_eqb k L_PAREN then Some (map (fun h => H2 (hsym h)) F)
      else if is_trivia_kind k then None else Some (kheads k)
  | Float b => Some [H1 (SFlo b)]
  | Nd _ e | Loose _ e => heads e F
  | Ins i => Some (iheads i)
  | Eps => Some F
  | Sq a b =>
      if solo a then heads a []
      else match heads b F with Some X => heads a X | None => None end
  | Or a b =>
      match heads a F, heads b F with Some X, Some Y => Some (union X Y) | _, _ => None end
  | Star a =>
      match heads a F with
      | Some Y =>
          let X := union Y F in
          match heads a X with
          | Some Z => if hincl Z X then Some X else None
          | None => None
          end
      | None => None
      end
  end.

(** Expressions that read at least one token. *)
Fixpoint nonnull (e : rx) : bool :=
  match e with
  | Kw _ | Tk _ | Float _ | Ins _ => true
  | Nd _ e | Loose _ e => nonnull e
  | Eps | Star _ => false
  | Sq a b => nonnull a || nonnull b
  | Or a b => nonnull a && nonnull b
  end.
(** Expressions whose first token is no white space and no comment when the
    first child is neither. *)
Fixpoint front (e : rx) : bool :=
  match e with
  | Kw _ | Float _ | Ins _ | Eps => true
  | Tk k => negb (is_trivia_kind k)
  | Nd _ e => front e && nonnull e
  | Loose _ _ => false
  | Sq a b => front a && (nonnull a || front b)
  | Or a b => front a && front b
  | Star a => front a
  end.

Lemma gtokenss_one g : gtokenss [g] = gtokens g.
Proof. unfold gtokenss. cbn. apply app_nil_r. Qed.
Lemma gtokenss_node k cs : gtokenss [Node k cs] = gtokenss cs.
Proof. now rewrite gtokenss_one. Qed.
Lemma app_nonnil {A} (a b : list A) : a <> [] \/ b <> [] -> a ++ b <> [].
Proof. intros [H|H] E; apply app_eq_nil in E as [-> ->]; congruence. Qed.

Lemma nonnull_ok e l : Reads e l -> nonnull e = true -> gtokenss l <> [].
Proof.
  induction 1; cbn [nonnull]; intros Hn; rewrite ?gtokenss_app; try discriminate.
  - apply app_nonnil. right. discriminate.
  - apply app_nonnil. right. discriminate.
  - apply app_nonnil. right. discriminate.
  - apply app_nonnil. right. rewrite gtokenss_node. auto.
  - rewrite gtokenss_node. auto.
  - apply IHReads. destruct i; reflexivity.
  - apply app_nonnil. apply orb_prop in Hn as [Hn|Hn]; auto.
  - apply andb_prop in Hn as [Hn _]. auto.
  - apply andb_prop in Hn as [_ Hn]. auto.
Qed.

(** Leading white space and comments can be split off. *)
Lemma reads_split e l : Reads e l -> exists tr m, l = tr ++ m /\ Trivia tr /\ Reads e m /\ Tight m.
Proof.
  assert (Z : Trivia []) by constructor.
  induction 1 as [s tr H|k t tr H Hk|b t tr H Hb|k e cs tr H Hr IH Ht|k e cs Hr IH|i l Hr IH| |a b l m Ha IHa Hb IHb
                 |a b l H IH|a b l H IH|a|a l m Ha IHa Hb IHb].
  - exists tr, [Tok KEYWORD (T s)]. repeat split; auto. apply (R_Kw s []), Z.
  - exists tr, [Tok k t]. repeat split; auto. now apply (R_Tk k t []).
  - exists tr, [Tok FLOAT t]. repeat split; auto. now apply (R_Float b t []).
  - exists tr, [Node k cs]. repeat split; auto. now apply (R_Nd k e cs []).
  - exists [], [Node k cs]. repeat split; auto. now constructor.
  - destruct IH as (tr & m & -> & Ht & Hm & Hn). exists tr, m. repeat split; auto. now constructor.
  - exists [], []. repeat split; auto. constructor.
  - destruct IHa as (tr & l' & -> & Ht & Hl & Hn). destruct l' as [|g l'].
    + destruct IHb as (tr2 & m' & -> & Ht2 & Hm & Hn2). exists (tr ++ tr2), m'.
      rewrite app_nil_r, app_assoc. repeat split; auto; [now apply Forall_app|].
      apply (R_Sq a b [] m'); auto.
    + exists tr, ((g :: l') ++ m). rewrite app_assoc. repeat split; auto. now constructor.
  - destruct IH as (tr & m & -> & Ht & Hm & Hn). exists tr, m. repeat split; auto. now apply R_OrL.
  - destruct IH as (tr & m & -> & Ht & Hm & Hn). exists tr, m. repeat split; auto. now apply R_OrR.
  - exists [], []. repeat split; auto. constructor.
  - destruct IHa as (tr & l' & -> & Ht & Hl & Hn). destruct l' as [|g l'].
    + destruct IHb as (tr2 & m' & -> & Ht2 & Hm & Hn2). exists (tr ++ tr2), m'.
      rewrite app_nil_r, app_assoc. repeat split; auto. now apply Forall_app.
    + exists tr, ((g :: l') ++ m). rewrite app_assoc. repeat split; auto. now constructor.
Qed.

Lemma Tight_app_l l m : Tight (l ++ m) -> Tight l.
Proof. destruct l as [|g l]; [intros _; exact I|auto]. Qed.
Lemma trivia_tight tr g m : Trivia tr -> Tight (tr ++ g :: m) -> tr = [].
Proof.
  intros H Ht. destruct H as [|x tr Hx _]; [reflexivity|]. exfalso. cbn [app Tight] in Ht.
  destruct x as [k t|]; [|exact Hx]. congruence.
Qed.
Lemma front_nil e l : Reads e l -> front e = true -> gtokenss l = [] -> l = [].
Proof.
  induction 1 as [s tr H|k t tr H Hk|b t tr H Hb|k e cs tr H Hr IH Ht|k e cs Hr IH|i l Hr IH| |a b l m Ha IHa Hb IHb
                 |a b l H IH|a b l H IH|a|a l m Ha IHa Hb IHb]; cbn [front]; intros Hf Hn; try discriminate Hf;
    rewrite ?gtokenss_app in Hn.
  - apply app_eq_nil in Hn as [_ Hn]. discriminate Hn.
  - apply app_eq_nil in Hn as [_ Hn]. discriminate Hn.
  - apply app_eq_nil in Hn as [_ Hn]. discriminate Hn.
  - apply app_eq_nil in Hn as [_ Hn]. rewrite gtokenss_node in Hn. apply andb_prop in Hf as [_ Hf].
    exfalso. now apply (nonnull_ok _ _ Hr Hf).
  - apply IH; auto. destruct i; reflexivity.
  - reflexivity.
  - apply app_eq_nil in Hn as [Hn1 Hn2]. apply andb_prop in Hf as [Hf Hf2].
    destruct (nonnull a) eqn:En; [exfalso; now apply (nonnull_ok _ _ Ha En)|].
    rewrite (IHa Hf Hn1), (IHb Hf2 Hn2). reflexivity.
  - apply andb_prop in Hf as [Hf _]. auto.
  - apply andb_prop in Hf as [_ Hf]. auto.
  - reflexivity.
  - apply app_eq_nil in Hn as [Hn1 Hn2]. rewrite (IHa Hf Hn1), (IHb Hf Hn2). reflexivity.
Qed.
Lemma front_ok e l r : Reads e l -> front e = true -> Tight l -> gtokenss l <> [] -> tight (gtokenss l ++ r).
Proof.
  assert (P : forall l r, tight (gtokenss l) -> gtokenss l <> [] -> tight (gtokenss l ++ r)).
  { intros x y Hx Hn. destruct (gtokenss x) as [|[k t] z]; [congruence|]. apply tight_inv in Hx.
    now apply tight_cons. }
  intros H Hf Ht Hn. apply P; [|exact Hn]. clear r. revert Hf Ht Hn.
  induction H as [s tr H|k t tr H Hk|b t tr H Hb|k e cs tr H Hr IH Ht|k e cs Hr IH|i l Hr IH| |a b l m Ha IHa Hb IHb
                 |a b l H IH|a b l H IH|a|a l m Ha IHa Hb IHb]; cbn [front]; intros Hf Ht' Hn; try discriminate Hf.
  - rewrite (trivia_tight _ _ _ H Ht'). apply (tight_cons KEYWORD (T s) []). reflexivity.
  - rewrite (trivia_tight _ _ _ H Ht'). apply (tight_cons k t []). exact Hk.
  - rewrite (trivia_tight _ _ _ H Ht'). apply (tight_cons FLOAT t []). reflexivity.
  - apply andb_prop in Hf as [Hf Hn']. rewrite (trivia_tight _ _ _ H Ht') in *. cbn [app] in *.
    rewrite gtokenss_node in *. auto.
  - apply IH; auto. destruct i; reflexivity.
  - reflexivity.
  - apply andb_prop in Hf as [Hf Hf2]. rewrite gtokenss_app in *.
    destruct (gtokenss l) as [|x y] eqn:E.
    + assert (l = []) by (eapply front_nil; eauto). subst l.
      destruct (nonnull a) eqn:En; [exfalso; apply (nonnull_ok _ _ Ha En); exact E|]. cbn [orb] in Hf2.
      cbn [app] in *. auto.
    + rewrite <- E in *. apply P; [|congruence]. apply IHa; auto; [|congruence]. now apply Tight_app_l in Ht'.
  - apply andb_prop in Hf as [Hf _]. auto.
  - apply andb_prop in Hf as [_ Hf]. auto.
  - reflexivity.
  - rewrite gtokenss_app in *. destruct (gtokenss l) as [|x y] eqn:E.
    + assert (l = []) by (eapply front_nil; eauto). subst l. cbn [app] in *. auto.
    + rewrite <- E in *. apply P; [|congruence]. apply IHa; auto; [|congruence]. now apply Tight_app_l in Ht'.
Qed.

(** ** Heads of what is written *)
Lemma cls_one k t r : is_trivia_kind k = false -> k <> L_PAREN -> cls ((k, t) :: r) = H1 (sym1 (k, t)).
Proof.
  intros H Hk. unfold cls, first. cbn [skip]. rewrite H. destruct k; try discriminate H; try reflexivity. congruence.
Qed.
Lemma cls_lp t r : cls ((L_PAREN, t) :: r) = H2 (hsym (cls r)).
Proof. rewrite hsym_cls. reflexivity. Qed.

Lemma iheads_ok i F : exists X, heads (instr_rx i) F = Some X /\ hincl X (iheads i) = true.
Proof. destruct i; (eexists; split; [vm_compute; reflexivity|vm_compute; reflexivity]). Qed.

Lemma kheads_ok k t : is_trivia_kind k = false -> k <> L_PAREN -> TokenForm k t ->
  In (H1 (sym1 (k, t))) (kheads k).
Proof.
  intros Hk Hl Hf.
  destruct (word_kind k) eqn:Ew.
  - destruct (word_kind_form k t Ew Hf) as [Hi _]. apply in_map_iff in Hi as (w & <- & Hw).
    assert (E : kheads k = map (fun w => H1 (SWs w)) (kwords k)) by (destruct k; try discriminate Ew; reflexivity).
    rewrite E. apply in_map_iff. exists w. split; [|exact Hw]. destruct k; try discriminate Ew; reflexivity.
  - destruct Hf as [Hf Hx]. destruct k; try discriminate Hk; try discriminate Ew; try (destruct Hf; fail);
      try (destruct Hx; fail); try (now left); try congruence.
    cbn [sym1 fst snd kheads]. destruct (starts_alpha t); [now left|right; now left].
Qed.
Lemma sep_app a b : Separated (a ++ b) -> Separated b.
Proof. induction a as [|[k t] a IH]; [auto|]. intros (_ & _ & H). auto. Qed.
Lemma solo_heads e l r : Reads e l -> solo e = true -> Separated (gtokenss l ++ r) ->
  forall X, heads e [] = Some X -> In (cls (gtokenss l ++ r)) X.
Proof.
  intros H Hs. destruct H; try discriminate Hs; intros Hsep X HX; cbn [heads] in HX;
    rewrite ?gtokenss_app, <- ?app_assoc in *; rewrite cls_trivia_app by assumption; apply sep_app in Hsep.
  - injection HX as <-. left. reflexivity.
  - cbn [solo] in Hs. apply negb_true_iff in Hs. rewrite Hs in HX. destruct (is_trivia_kind k) eqn:E; [discriminate|].
    injection HX as <-. cbn [gtokenss map concat gtokens app] in *. rewrite cls_one; auto.
    + apply kheads_ok; auto; [intros ->; discriminate|apply Hsep].
    + intros ->. discriminate.
  - injection HX as <-. left. cbn [gtokenss map concat gtokens app]. rewrite cls_one by (reflexivity || discriminate).
    cbn [sym1 fst snd]. congruence.
Qed.
Lemma heads_ok e l : Reads e l -> forall r F X, Separated (gtokenss l ++ r) -> heads e F = Some X ->
  In (cls r) F -> In (cls (gtokenss l ++ r)) X.
Proof.
  intros H. induction H as [s tr H|k t tr H Hk|b t tr H Hb|k e cs tr H Hr IH Ht|k e cs Hr IH|i l Hr IH| |a b l m Ha IHa Hb IHb
                 |a b l H IH|a b l H IH|a|a l m Ha IHa Hb IHb]; intros r F X Hsep HX HF; cbn [heads] in HX.
  - apply (solo_heads (Kw s)); auto; [now constructor].
  - destruct (kind_eqb k L_PAREN) eqn:E.
    + apply kind_eqb_eq in E as ->. injection HX as <-. rewrite gtokenss_app, <- app_assoc in *.
      rewrite cls_trivia_app by assumption. cbn [gtokenss map concat gtokens app]. rewrite cls_lp.
      now apply (in_map (fun h => H2 (hsym h))).
    + apply (solo_heads (Tk k)); [now constructor|cbn [solo]; now rewrite E|exact Hsep|].
      cbn [heads]. rewrite E. exact HX.
  - apply (solo_heads (Float b)); auto; [now constructor].
  - rewrite gtokenss_app, <- app_assoc in *. rewrite cls_trivia_app by assumption. rewrite gtokenss_node in *.
    apply sep_app in Hsep. eauto.
  - rewrite gtokenss_node in *. eauto.
  - destruct (iheads_ok i F) as (Y & HY & Hin). injection HX as <-. eapply hincl_in; [exact Hin|]. eauto.
  - injection HX as <-. exact HF.
  - rewrite gtokenss_app, <- app_assoc in *. destruct (solo a) eqn:Es.
    + eapply solo_heads; eauto.
    + destruct (heads b F) as [Y|] eqn:EY; [|discriminate]. eapply IHa; eauto.
      eapply IHb; eauto. now apply sep_app in Hsep.
  - destruct (heads a F) as [Y|] eqn:EY; [|discriminate]. destruct (heads b F) as [Z|] eqn:EZ; [|discriminate].
    injection HX as <-. apply in_union. left. eauto.
  - destruct (heads a F) as [Y|] eqn:EY; [|discriminate]. destruct (heads b F) as [Z|] eqn:EZ; [|discriminate].
    injection HX as <-. apply in_union. right. eauto.
  - destruct (heads a F) as [Y|]; [|discriminate]. destruct (heads a (union Y F)) as [Z|]; [|discriminate].
    destruct (hincl Z (union Y F)); [|discriminate]. injection HX as <-. apply in_union. now right.
  - pose proof HX as HX'. destruct (heads a F) as [Y|] eqn:EY; [|discriminate].
    destruct (heads a (union Y F)) as [Z|] eqn:EZ; [|discriminate].
    destruct (hincl Z (union Y F)) eqn:EI; [|discriminate]. injection HX as <-.
    rewrite gtokenss_app, <- app_assoc in *. eapply hincl_in; [exact EI|]. eapply IHa; eauto.
    eapply IHb; [now apply sep_app in Hsep| |exact HF]. cbn [heads]. rewrite EY, EZ, EI. reflexivity.
Qed.

(** Repetitions as lists. *)
Lemma star_list a l : Reads (Star a) l -> exists ls, l = concat ls /\ Forall (Reads a) ls.
Proof.
  intros H. remember (Star a) as e eqn:E. revert E.
  induction H; intros E; try discriminate E.
  - exists []. auto.
  - injection E as ->. destruct IHReads2 as (ls & -> & Hl); [reflexivity|]. exists (l :: ls). auto.
Qed.
Lemma list_star a ls : Forall (Reads a) ls -> Reads (Star a) (concat ls).
Proof. induction 1; cbn [concat]; now constructor. Qed.
