(** Property C55: names do not matter.  Writing other names for the names of a
    well-formed document, different ones for different ones, changes no answer
    except for the names in messages. *)

From Coq Require Import String List NArith Bool Arith Lia Permutation.
From Verif Require Import Text Kind Green SpecParser SpecSyntax Lexer LexerFacts Winnow Grammar Sem Lossless Total
  Bounds Lang TokForm Shape ThmParser ThmSyntax Red Unique LineIndex Cursor Doc Ast Binder Nav NavSpec NavFacts Check ThmRename
  SpecAction ThmAction SpecRename ThmRenamed SpecAlike Alike AlikeNav AlikeCheck AlikeDoc ThmAlike.
From Verif Require SpecComplete ThmComplete ThmReparse ThmStructure.
Import ListNotations.
Notation Document := SpecComplete.Document.

Section Names.
  Variable f : text -> text.
  Notation wn := (with_names f).
  Lemma wn_tok k t : k <> IDENT -> wn (Tok k t) = Tok k t.
  Proof. intros H. cbn. destruct (kind_eqb k IDENT) eqn:E; [apply kind_eqb_eq in E; congruence|reflexivity]. Qed.
  Lemma trivia_wn l : SpecComplete.Trivia l -> SpecComplete.Trivia (map wn l).
  Proof.
    induction 1 as [|g l H _ IH]; cbn [map]; constructor; [|apply IH].
    destruct g as [k t|]; [|destruct H]. rewrite wn_tok; [exact H|]. intros ->. discriminate.
  Qed.
  Lemma tight_wn l : SpecComplete.Tight l -> SpecComplete.Tight (map wn l).
  Proof. destruct l as [|[k t|k cs] l]; cbn; intros H; [exact I| |exact I]. destruct kind_eqb; exact H. Qed.
  Lemma reads_wn e l : SpecComplete.Reads e l -> SpecComplete.Reads e (map wn l).
  Proof.
    induction 1 as [s tr Ht|k t tr Ht Hk|b t tr Ht Hb|k e cs tr Ht _ IH Hc|k e cs _ IH|i l _ IH| |a b l m _ IHa _ IHb|a b l _ IH|a b l _ IH|a|a l m _ IHa _ IHb];
      rewrite ?map_app; cbn [map]; try (constructor; auto; fail).
    - rewrite wn_tok by discriminate. constructor. now apply trivia_wn.
    - cbn [with_names]. destruct (kind_eqb _ _); constructor; auto; now apply trivia_wn.
    - rewrite wn_tok by discriminate. constructor; auto. now apply trivia_wn.
    - constructor; auto; [now apply trivia_wn|now apply tight_wn].
  Qed.

  Definition ren (p : kind * text) : kind * text := if kind_eqb (fst p) IDENT then (fst p, f (snd p)) else p.
  Lemma wn_tokens g : gtokens (wn g) = map ren (gtokens g).
  Proof.
    induction g as [k t|k cs IH] using green_ind'.
    - cbn. unfold ren. cbn. destruct kind_eqb; reflexivity.
    - cbn [with_names gtokens]. induction IH as [|c cs Hc _ IHc]; [reflexivity|]. cbn [map concat]. now rewrite map_app, Hc, IHc.
  Qed.
  (** Every identifier and its new name start with a dollar. *)
  Definition Good (p : kind * text) : Prop := fst p = IDENT -> (exists r, snd p = c_dollar :: r) /\ ValidName (f (snd p)).
  Lemma valid_dollar x : ValidName x -> exists r, x = c_dollar :: r.
  Proof. intros (c & r & -> & _). eauto. Qed.
  Lemma valid_form x : ValidName x -> SpecComplete.TokenForm IDENT x.
  Proof. intros (c & r & E & F). split; [|exact I]. cbn. exists (c :: r). split; [exact E|]. split; [discriminate|exact F]. Qed.
  Lemma ren_head l : Forall Good l ->
    forall c x, SpecComplete.texts (map ren l) = c :: x -> exists x', SpecComplete.texts l = c :: x'.
  Proof.
    unfold SpecComplete.texts. induction 1 as [|[k t] l Hg _ IH]; intros c x E; [discriminate|]. cbn [map concat] in *.
    unfold ren in E at 1. cbn [fst snd] in *. destruct (kind_eqb k IDENT) eqn:K; cbn [snd] in *.
    - apply kind_eqb_eq in K. destruct (Hg K) as [(r & Er) V]. cbn [snd] in Er, V. apply valid_dollar in V as (r' & Er'). subst t. rewrite Er' in E.
      cbn [app] in *. injection E as <- _. eauto.
    - destruct t as [|a t]; cbn [app] in *; [eauto|]. injection E as <- _. eauto.
  Qed.
  Lemma ren_prefix l : Forall Good l ->
    forall p, ~ In c_dollar p -> SpecComplete.Prefix p (SpecComplete.texts l) -> SpecComplete.Prefix p (SpecComplete.texts (map ren l)).
  Proof.
    unfold SpecComplete.texts. induction 1 as [|[k t] l Hg _ IH]; intros p Np Hp; [exact Hp|]. cbn [map concat] in *.
    unfold ren at 1. cbn [fst snd] in *. destruct (kind_eqb k IDENT) eqn:K; cbn [snd] in *.
    - apply kind_eqb_eq in K. destruct (Hg K) as [(r & Er) V]. cbn [snd] in Er. subst t. destruct p as [|b p]; [eexists; reflexivity|].
      destruct Hp as (r0 & E). cbn [app] in E. injection E as E _. exfalso. apply Np. left. congruence.
    - destruct Hp as (r & E). clear Hg. revert p r Np E. induction t as [|a t IHt]; intros p r Np E; cbn [app] in *.
      + apply IH; auto. now exists r.
      + destruct p as [|b p]; [eexists; reflexivity|]. cbn [app] in E. injection E as -> E.
        destruct (IHt p r) as (r' & Hr'); [intros Hin; apply Np; now right|exact E|].
        exists r'. cbn [app]. now rewrite Hr'.
  Qed.
  Lemma separated_ren l : Forall Good l -> SpecComplete.Separated l -> SpecComplete.Separated (map ren l).
  Proof.
    induction 1 as [|[k t] l Hg F IH]; intros S; [exact I|]. cbn [map]. unfold ren at 1. cbn [fst snd].
    assert (X : SpecComplete.Separated ((k, if kind_eqb k IDENT then f t else t) :: map ren l)); [|now destruct kind_eqb].
    cbn [SpecComplete.Separated] in *. destruct S as (S1 & S2 & S3). split; [|split; [|auto]].
    - destruct (kind_eqb k IDENT) eqn:K; [|exact S1]. apply kind_eqb_eq in K. subst k. apply valid_form. now apply Hg.
    - pose proof (ren_head l F) as Hh. pose proof (ren_prefix l F) as Hp.
      assert (G : (forall c x, SpecComplete.texts l = c :: x -> is_id_char c = false) ->
        forall c x, SpecComplete.texts (map ren l) = c :: x -> is_id_char c = false)
        by (intros A c x E; destruct (Hh c x E) as (x' & E'); eapply A; exact E').
      destruct k; cbn [SpecComplete.Follows] in *; try exact I; try (now apply G).
      + intros c x E. destruct (Hh c x E) as (x' & E'). eapply S2; exact E'.
      + destruct S2 as [S2|[S2|S2]]; [left|right; left|right; right]; try (apply Hp; auto; intros Hin; vm_compute in Hin; intuition discriminate).
        destruct (SpecComplete.texts (map ren l)) as [|c x] eqn:E; [reflexivity|]. destruct (Hh c x eq_refl). congruence.
      + intros (r & E). destruct (Hh _ _ E) as (x' & E'). apply S2. now exists x'.
  Qed.

  Lemma filter_wn cs : filter significant (map wn cs) = map wn (filter significant cs).
  Proof.
    induction cs as [|c cs IH]; [reflexivity|]. cbn [map filter].
    assert (E : significant (wn c) = significant c) by (destruct c; cbn; [destruct kind_eqb|]; reflexivity).
    rewrite E. destruct (significant c); cbn [map]; congruence.
  Qed.
  Lemma wn_sim (P : text -> Prop) : forall g, significant g = true -> (forall x, In (IDENT, x) (gtokens g) -> P x) ->
    Sim (fun x x' => P x /\ x' = f x) g (wn g).
  Proof.
    induction g as [k t|k cs IH] using green_ind'; intros S H; cbn [with_names].
    - cbn in S. apply negb_true_iff in S. destruct (kind_eqb k IDENT) eqn:K; constructor; auto; rewrite K; auto.
      apply kind_eqb_eq in K. subst k. split; [apply H; now left|reflexivity].
    - constructor. rewrite filter_wn. rewrite Forall_forall in IH.
      assert (G : forall c, In c (filter significant cs) -> Sim (fun x x' => P x /\ x' = f x) c (wn c)).
      { intros c Hc. apply filter_In in Hc as [Hc Sc]. apply IH; auto. intros x Hx. apply H. cbn [gtokens]. apply in_concat.
        exists (gtokens c). split; [now apply in_map|exact Hx]. }
      revert G. generalize (filter significant cs). induction l as [|c l IHl]; intros G; cbn [map]; constructor; [apply G; now left|].
      apply IHl. intros x Hx. apply G. now right.
  Qed.
End Names.

(** ** Consistent renaming *)

(** The new names are identifiers, different ones for different names. *)
Definition Renames (f : text -> text) (tree : green) : Prop :=
  (forall x, Occurs tree x -> ValidName (f x)) /\ (forall x y, Occurs tree x -> Occurs tree y -> f x = f y -> x = y).

(** The result is a well-formed document. *)
Theorem C55_document dbg f a :
  Document a -> (forall x, Occurs a x -> ValidName (f x)) ->
  Document (with_names f a) /\ parse dbg (gtext (with_names f a)) = Parsed (with_names f a) [].
Proof.
  intros D V. assert (G : Document (with_names f a)); [|split; [exact G|now apply ThmComplete.C48_complete]].
  pose proof (ThmReparse.document_form _ D) as Fm. destruct D as (ms & tl & -> & Rd & Tl & Sp).
  exists (map (with_names f) ms), (map (with_names f) tl). split; [cbn [with_names]; now rewrite map_app|].
  split; [now apply reads_wn|]. split; [now apply trivia_wn|]. rewrite wn_tokens. apply separated_ren; [|exact Sp].
  apply Forall_forall. intros [k t] Hin Hk. cbn [fst snd] in *. subst k. split; [|now apply V].
  destruct (Fm _ _ Hin) as [(r & -> & _) _]. eauto.
Qed.
Print Assumptions C55_document.

Section Two.
  Variables (f : text -> text) (a : green).
  Hypothesis (Da : Document a) (Hf : Renames f a).
  Notation b := (with_names f a).
  Definition Called (x x' : text) : Prop := Occurs a x /\ x' = f x.
  Lemma called_eqb : forall x x' y y', Called x x' -> Called y y' -> text_eqb x y = text_eqb x' y'.
  Proof.
    intros x x' y y' [Ox ->] [Oy ->]. destruct (text_eqb x y) eqn:E.
    - apply text_eqb_eq in E. subst y. now rewrite text_eqb_refl.
    - symmetry. apply not_true_iff_false. intros X. apply text_eqb_eq in X. apply (proj2 Hf) in X; auto. subst y.
      rewrite text_eqb_refl in E. discriminate.
  Qed.
  Lemma Db : Document b.
  Proof. apply (C55_document false). - exact Da. - apply Hf. Qed.
  Lemma two_sim : Sim Called (tree_of (gtext a)) (tree_of (gtext b)).
  Proof.
    destruct (ThmAlike.document_tree _ Da) as [-> _]. destruct (ThmAlike.document_tree _ Db) as [-> _]. apply wn_sim.
    - destruct Da as (ms & tl & -> & _). reflexivity.
    - intros x Hx. exact Hx.
  Qed.
  Lemma two_counter t t' : Counterpart a b t t' -> R Called (tree_of (gtext a)) (tree_of (gtext b)) t t'.
  Proof.
    intros H. apply counterpart_R; [apply two_sim|]. destruct (ThmAlike.document_tree _ Da) as [-> _].
    destruct (ThmAlike.document_tree _ Db) as [-> _]. exact H.
  Qed.
End Two.

(** ** Definitions and references *)

Theorem C55_goto_definition f a pos pos' t t' :
  Document a -> Renames f a ->
  CursorOn (gtext a) pos t -> CursorOn (gtext (with_names f a)) pos' t' -> Counterpart a (with_names f a) t t' ->
  AnsR (SameResponse (gtext a) (gtext (with_names f a)))
    (goto_definition (gtext a) pos) (goto_definition (gtext (with_names f a)) pos').
Proof.
  intros Da Hf Hc Hc' Ht.
  exact (A_goto_definition (Called f a) (called_eqb f a Hf) _ _ (two_sim f a Da Hf) pos pos' t t' Hc Hc' (two_counter f a Da Hf t t' Ht)).
Qed.
Print Assumptions C55_goto_definition.
Theorem C55_goto_declaration f a pos pos' t t' :
  Document a -> Renames f a ->
  CursorOn (gtext a) pos t -> CursorOn (gtext (with_names f a)) pos' t' -> Counterpart a (with_names f a) t t' ->
  AnsR (SameResponse (gtext a) (gtext (with_names f a)))
    (goto_declaration (gtext a) pos) (goto_declaration (gtext (with_names f a)) pos').
Proof.
  intros Da Hf Hc Hc' Ht.
  exact (A_goto_declaration (Called f a) (called_eqb f a Hf) _ _ (two_sim f a Da Hf) pos pos' t t' Hc Hc' (two_counter f a Da Hf t t' Ht)).
Qed.
Print Assumptions C55_goto_declaration.
Theorem C55_goto_type_definition f a pos pos' t t' :
  Document a -> Renames f a ->
  CursorOn (gtext a) pos t -> CursorOn (gtext (with_names f a)) pos' t' -> Counterpart a (with_names f a) t t' ->
  AnsR (SameResponse (gtext a) (gtext (with_names f a)))
    (goto_type_definition (gtext a) pos) (goto_type_definition (gtext (with_names f a)) pos').
Proof.
  intros Da Hf Hc Hc' Ht.
  exact (A_goto_type_definition (Called f a) (called_eqb f a Hf) _ _ (two_sim f a Da Hf) pos pos' t t' Hc Hc' (two_counter f a Da Hf t t' Ht)).
Qed.
Print Assumptions C55_goto_type_definition.
Theorem C55_find_references f a pos pos' t t' incl :
  Document a -> Renames f a ->
  CursorOn (gtext a) pos t -> CursorOn (gtext (with_names f a)) pos' t' -> Counterpart a (with_names f a) t t' ->
  AnsR (Forall2 (SamePlace (gtext a) (gtext (with_names f a))))
    (find_references (gtext a) pos incl) (find_references (gtext (with_names f a)) pos' incl).
Proof.
  intros Da Hf Hc Hc' Ht.
  exact (A_find_references (Called f a) (called_eqb f a Hf) _ _ (two_sim f a Da Hf) pos pos' t t' Hc Hc' (two_counter f a Da Hf t t' Ht) incl).
Qed.
Print Assumptions C55_find_references.

(** ** Diagnostics *)

Lemma same_renamed f a m m' : SameText (Called f a) m m' -> RenamedText f m m'.
Proof. intros [m0|u x x' v [_ E]]; [constructor|]. now constructor. Qed.
Theorem C55_diagnostics f a :
  Document a -> Renames f a ->
  AnsR (Forall2 (RenamedDiagnostic f (gtext a) (gtext (with_names f a)))) (check (gtext a)) (check (gtext (with_names f a))).
Proof.
  intros Da Hf. pose proof (Db f a Da Hf) as D. destruct (ThmAlike.document_tree _ Da) as [Ta Ea]. destruct (ThmAlike.document_tree _ D) as [Tb Eb].
  assert (H1 : AnsR (Forall2 (SameDiag (Called f a) (gtext a) (gtext (with_names f a)))) (check (gtext a)) (check (gtext (with_names f a)))).
  { apply A_check; auto; [now apply called_eqb|now apply two_sim|rewrite Ta; now apply document_headed|rewrite Tb; now apply document_headed]. }
  eapply AR_imp; [|exact H1]. apply F2_imp. intros d d' (P & M & L). split; [exact P|]. split; [eapply same_renamed; exact M|].
  destruct L as [|l l' L]; [exact I|]. eapply F2_imp; [|exact L]. intros p p' [L1 L2]. split; [exact L1|eapply same_renamed; exact L2].
Qed.
Print Assumptions C55_diagnostics.

(** ** The rename request *)

(** [old] is called [new], every other name is kept. *)
Definition instead (old new x : text) : text := if text_eqb x old then new else x.

Section Replaced.
  Variables (at_ : nat -> bool) (old new : text).
  Lemma replaced_wn g : forall o us,
    (forall t, In t (desc g o us) -> is_node t = false -> ekind t = IDENT -> (at_ (estart t) = true <-> etext t = old)) ->
    replaced at_ new o g = with_names (instead old new) g.
  Proof.
    induction g as [k t|k cs IH] using green_ind'; intros o us H.
    - cbn [replaced with_names]. destruct (kind_eqb k IDENT) eqn:K; [|reflexivity]. apply kind_eqb_eq in K. subst k.
      specialize (H (mk_elem (Tok IDENT t) o us) (or_introl eq_refl) eq_refl eq_refl). unfold estart, etext in H. cbn [off el gtext] in H.
      cbn [andb]. unfold instead. destruct (at_ o).
      + rewrite (proj1 H eq_refl), text_eqb_refl. reflexivity.
      + destruct (text_eqb t old) eqn:E; [|reflexivity]. apply text_eqb_eq in E. apply H in E. discriminate.
    - cbn [desc] in H. rewrite desc_kids in H. rewrite replaced_node. cbn [with_names]. f_equal. rewrite Forall_forall in IH.
      assert (H' : forall t, In t (concat (map descendants_with_tokens (kids (Node k cs) o us 0 o cs))) -> is_node t = false -> ekind t = IDENT -> (at_ (estart t) = true <-> etext t = old))
        by (intros; apply H; auto; now right).
      clear H. revert H'. enough (G : forall l, incl l cs -> forall i o',
        (forall t, In t (concat (map descendants_with_tokens (kids (Node k cs) o us i o' l))) -> is_node t = false -> ekind t = IDENT -> (at_ (estart t) = true <-> etext t = old)) ->
        rs at_ new o' l = map (with_names (instead old new)) l) by (apply G, incl_refl).
      induction l as [|c l IHl]; intros Hc i o' H; [reflexivity|]. cbn [rs map]. cbn [kids map concat] in H. f_equal.
      + eapply (IH c); [apply Hc; now left|]. intros t Ht. apply H. apply in_or_app. left. exact Ht.
      + apply (IHl ltac:(intros z Hz; apply Hc; now right) (S i)). intros t Ht. apply H. apply in_or_app. now right.
  Qed.
End Replaced.

(** Renaming [old] to a name that does not occur: when the request edits
    exactly the identifiers spelled [old], the result of the edits is the
    document in which [old] is called [new], and so C55 applies to it: the
    same definitions, references and diagnostics. *)
Theorem C55_rename dbg a pos old new es :
  Document a -> rename (gtext a) pos new = Edits es -> ~ Occurs a new ->
  (forall t r, InTree a t -> is_node t = false -> ekind t = IDENT -> RangeOf (gtext a) t r ->
     (etext t = old <-> exists e, In e es /\ fst e = r)) ->
  exists es',
    Permutation es es' /\ Applied (gtext a) es' (gtext (with_names (instead old new) a))
    /\ parse dbg (gtext (with_names (instead old new) a)) = Parsed (with_names (instead old new) a) []
    /\ Renames (instead old new) a
    /\ AnsR (Forall2 (RenamedDiagnostic (instead old new) (gtext a) (gtext (with_names (instead old new) a))))
         (check (gtext a)) (check (gtext (with_names (instead old new) a))).
Proof.
  intros D H Hnew Hold. destruct (C22_valid_edits _ _ _ _ H) as (V & _).
  destruct (C52_renamed dbg a pos new es D H) as (ts & es' & tree' & F & F2 & Et & P & A & D' & Pr).
  destruct (ThmAlike.document_tree _ D) as [Ta _].
  assert (Rn : Renames (instead old new) a).
  { split.
    - intros x Ox. unfold instead. destruct text_eqb; [exact V|].
      destruct (ThmReparse.document_form _ D _ _ Ox) as [(r & -> & Hr & Hc) _].
      destruct r as [|c r]; [congruence|]. exists c, r. auto.
    - intros x y Ox Oy. unfold instead. destruct (text_eqb x old) eqn:Ex, (text_eqb y old) eqn:Ey; intros E; subst; auto; try contradiction.
      apply text_eqb_eq in Ex, Ey. congruence. }
  assert (E : tree' = with_names (instead old new) a).
  { rewrite Et. apply (replaced_wn _ old new a 0 []). intros t Ht Nt Kt.
    change (desc a 0 []) with (descendants_with_tokens (root_of a)) in Ht. rewrite desc_spec in Ht. fold (InTree a t) in Ht.
    assert (Hr : exists r, RangeOf (gtext a) t r).
    { pose proof Ht as Ht'. rewrite <- Ta in Ht'. destruct (range_of_ok _ _ Ht') as (r & _ & Hr). exists r. exact Hr. }
    destruct Hr as (r & Hr). rewrite (Hold t r Ht Nt Kt Hr). unfold starts_in. rewrite existsb_exists. split.
    - intros (o & Ho & Eo). apply Nat.eqb_eq in Eo. apply in_map_iff in Ho as (u & Eu & Hu).
      rewrite Forall_forall in F. destruct (F u Hu) as (Tu & Nu & Ku).
      assert (X : t = u).
      { rewrite <- Ta in Tu, Ht. destruct (earlier_total _ t u Ht Tu Nt Nu) as [X|[X|X]]; [exact X| |];
          apply earlier_start in X; auto; lia. }
      subst u. clear -F2 Hu Hr. induction F2 as [|e u es us [R1 _] _ IH]; [destruct Hu|]. destruct Hu as [->|Hu].
      + exists e. split; [now left|]. eapply ThmStructure.range_fun; eassumption.
      + destruct (IH Hu) as (e' & I' & E'). exists e'. split; [now right|exact E'].
    - intros (e & He & Ee). assert (G : exists u, In u ts /\ RangeOf (gtext a) u (fst e)).
      { clear -F2 He. induction F2 as [|e0 u es us [R1 _] _ IH]; [destruct He|]. destruct He as [->|He]; [exists u; split; [now left|exact R1]|].
        destruct (IH He) as (u' & I' & E'). exists u'. split; [now right|exact E']. }
      destruct G as (u & Hu & Ru). rewrite Ee in Ru. destruct (ThmStructure.range_inj _ _ _ _ Ru Hr) as [Es _].
      exists (estart u). split; [now apply in_map|]. apply Nat.eqb_eq. congruence. }
  subst tree'. rewrite E in *. exists es'. repeat (split; auto). now apply C55_diagnostics.
Qed.
Print Assumptions C55_rename.

(** ** Examples *)

(** A document with diagnostics, and a renaming that exchanges two names. *)
Definition alpha_ex : text := Text.T "(module (func $f (result i32) (local $x i64) local.get $x i32.eqz call $g) (func $f))".
Definition alpha_new (x : text) : text :=
  if text_eqb x (Text.T "$f") then Text.T "$x" else if text_eqb x (Text.T "$x") then Text.T "$f" else x.
Definition names_of (tree : green) : list text := map snd (filter (fun p => kind_eqb (fst p) IDENT) (gtokens tree)).
Lemma occurs_names tree x : Occurs tree x <-> In x (names_of tree).
Proof.
  unfold Occurs, names_of. rewrite in_map_iff. split.
  - intros H. exists (IDENT, x). split; [reflexivity|]. now apply filter_In.
  - intros ([k y] & E & H). cbn in E. subst y. apply filter_In in H as [H K]. cbn in K. apply kind_eqb_eq in K. now subst k.
Qed.
Lemma renames_by f tree :
  forallb (fun x => valid_name (f x)) (names_of tree) = true ->
  forallb (fun x => forallb (fun y => implb (text_eqb (f x) (f y)) (text_eqb x y)) (names_of tree)) (names_of tree) = true ->
  Renames f tree.
Proof.
  intros H1 H2. rewrite forallb_forall in H1, H2. split.
  - intros x Hx. apply valid_name_iff. apply H1. now apply occurs_names.
  - intros x y Hx Hy E. apply occurs_names in Hx, Hy. specialize (H2 x Hx). rewrite forallb_forall in H2. specialize (H2 y Hy).
    rewrite E, text_eqb_refl in H2. cbn in H2. now apply text_eqb_eq.
Qed.
Example C55_example :
  Document (ex_tree alpha_ex) /\ Renames alpha_new (ex_tree alpha_ex) /\ gtext (ex_tree alpha_ex) = alpha_ex
  /\ gtext (with_names alpha_new (ex_tree alpha_ex))
     = Text.T "(module (func $x (result i32) (local $f i64) local.get $f i32.eqz call $g) (func $x))"
  /\ length (ranges_of (check alpha_ex)) = 4.
Proof.
  split; [apply ThmComplete.documentb_ok; vm_compute; reflexivity|].
  split; [apply renames_by; vm_compute; reflexivity|]. vm_compute. auto.
Qed.

(** Renaming a function that is used elsewhere: exactly its occurrences are
    edited. *)
Definition pair_dec (r r' : range) : {r = r'} + {r <> r'}.
Proof. repeat decide equality. Defined.
Lemma exact_by a old (es : list (range * text)) :
  Document a ->
  forallb (fun t => is_node t || negb (kind_eqb (ekind t) IDENT)
    || match range_of (gtext a) t with
       | Ans r => Bool.eqb (text_eqb (etext t) old)
           (existsb (fun e => if pair_dec (fst e) r then true else false) es)
       | _ => false
       end) (descendants_with_tokens (root_of a)) = true ->
  forall t r, InTree a t -> is_node t = false -> ekind t = IDENT -> RangeOf (gtext a) t r ->
     (etext t = old <-> exists e, In e es /\ fst e = r).
Proof.
  intros D H t r Ht Nt Kt Hr. rewrite forallb_forall in H. assert (Hd : In t (descendants_with_tokens (root_of a))) by now rewrite desc_spec.
  specialize (H t Hd). rewrite Nt, Kt in H. cbn [kind_eqb negb orb] in H. apply range_iff in Hr. rewrite Hr in H.
  apply Bool.eqb_prop in H. rewrite <- text_eqb_eq, H, existsb_exists. split; intros (e & He & E); exists e; (split; [exact He|]).
  - destruct (pair_dec (fst e) r); [assumption|discriminate].
  - destruct (pair_dec (fst e) r); [reflexivity|contradiction].
Qed.
Example C55_rename_example :
  exists es, rename renamed_ex (0, 15) (Text.T "$main") = Edits es /\ length es = 2
    /\ ~ Occurs renamed_tree (Text.T "$main")
    /\ forall t r, InTree renamed_tree t -> is_node t = false -> ekind t = IDENT -> RangeOf renamed_ex t r ->
         (etext t = Text.T "$f" <-> exists e, In e es /\ fst e = r).
Proof.
  eexists. split; [vm_compute; reflexivity|]. split; [reflexivity|]. split.
  - rewrite occurs_names. intros H. vm_compute in H. intuition discriminate.
  - assert (E : gtext renamed_tree = renamed_ex) by (vm_compute; reflexivity). rewrite <- E. apply exact_by.
    + apply ThmComplete.documentb_ok. vm_compute. reflexivity.
    + vm_compute. reflexivity.
Qed.

(** The request edits every named element of the module, so without that
    condition a document without diagnostics may turn into one that has some. *)
Theorem C55_rename_refuted :
  exists src pos new es out d ds,
    Document (tree_of src) /\ gtext (tree_of src) = src /\ ~ Occurs (tree_of src) new
    /\ rename src pos new = Edits es /\ Applied src es out
    /\ check src = Ans [] /\ check out = Ans (d :: ds).
Proof.
  exists rename_ex, (0, 15), (Text.T "$z"). do 2 eexists.
  enough (G : exists d ds, Document (tree_of rename_ex) /\ gtext (tree_of rename_ex) = rename_ex /\ ~ Occurs (tree_of rename_ex) (Text.T "$z")
    /\ rename rename_ex (0, 15) (Text.T "$z")
       = Edits [(((0, 14), (0, 16)), Text.T "$z"); (((0, 24), (0, 26)), Text.T "$z"); (((0, 33), (0, 35)), Text.T "$z")]
    /\ Applied rename_ex [(((0, 14), (0, 16)), Text.T "$z"); (((0, 24), (0, 26)), Text.T "$z"); (((0, 33), (0, 35)), Text.T "$z")]
         (Text.T "(module (func $z) (func $z (call $z)))")
    /\ check rename_ex = Ans [] /\ check (Text.T "(module (func $z) (func $z (call $z)))") = Ans (d :: ds)) by exact G.
  do 2 eexists. split; [apply ThmComplete.documentb_ok; vm_compute; reflexivity|]. split; [vm_compute; reflexivity|]. split.
  { rewrite occurs_names. intros H. vm_compute in H. intuition discriminate. }
  split; [vm_compute; reflexivity|]. split; [|split; vm_compute; reflexivity].
  change (Edited [] (Text.T "(module (func " ++ Text.T "$a" ++ Text.T ") (func " ++ Text.T "$b" ++ Text.T " (call " ++ Text.T "$a" ++ Text.T ")))")
    [(((0, 14), (0, 16)), Text.T "$z"); (((0, 24), (0, 26)), Text.T "$z"); (((0, 33), (0, 35)), Text.T "$z")]
    (Text.T "(module (func " ++ Text.T "$z" ++ Text.T ") (func " ++ Text.T "$z" ++ Text.T " (call " ++ Text.T "$z" ++ Text.T ")))")).
  apply Ed_edit; [eapply (at_text rename_ex); vm_compute; reflexivity|].
  apply Ed_edit; [eapply (at_text rename_ex); vm_compute; reflexivity|].
  apply Ed_edit; [eapply (at_text rename_ex); vm_compute; reflexivity|constructor].
Qed.
Print Assumptions C55_rename_refuted.
