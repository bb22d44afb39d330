(** Property C54: white space and comments do not matter.  Two well-formed
    documents with the same words have the same syntax tree, the same
    definitions and references, and the same diagnostics. *)

From Coq Require Import String List NArith Bool Arith Lia.
From Verif Require Import Text Kind Green SpecParser SpecSyntax Lexer LexerFacts Winnow Grammar Sem Lossless Total
  Bounds Lang TokForm Shape ThmParser ThmSyntax Red Unique LineIndex Cursor Doc Ast Nav NavSpec NavFacts Check
  SpecFormat Format FmtRequest Respace SpecAlike Alike AlikeNav AlikeCheck AlikeDoc ThmReparse ThmFormat.
From Verif Require SpecComplete ThmComplete FmtParse.
Import ListNotations.
Notation Document := SpecComplete.Document.

(** ** The tree *)

(** Well-formed documents with the same words have the same tree, up to white
    space and comments. *)
Theorem C54_same_tree a b :
  Document a -> Document b -> words a = words b -> bare a = bare b.
Proof.
  intros Ha Hb E. destruct (respace_document a (gtokens b) Ha) as (b' & D & G & B).
  - symmetry. exact E.
  - now destruct Hb as (ms & tl & -> & _ & _ & S).
  - rewrite <- B. f_equal. symmetry. apply ThmComplete.C48_unambiguous; [exact Hb|exact D|]. rewrite !gtext_tokens. now rewrite G.
Qed.
Print Assumptions C54_same_tree.

(** Any white space and comments may be put between the words, as long as
    neighbouring tokens stay apart. *)
Theorem C54_respaced dbg a ts :
  Document a -> SpecComplete.Separated ts ->
  filter (fun p => negb (is_trivia_kind (fst p))) ts = words a ->
  exists b, parse dbg (SpecComplete.texts ts) = Parsed b [] /\ Document b /\ gtokens b = ts /\ bare b = bare a.
Proof.
  intros Ha Hs E. destruct (respace_document a ts Ha E Hs) as (b & D & G & B). exists b.
  split; [|auto]. rewrite <- (ThmComplete.C48_complete dbg b D). f_equal. rewrite gtext_tokens, G. reflexivity.
Qed.
Print Assumptions C54_respaced.

(** ** Definitions and references *)

Lemma eq_names : forall x x' y y' : text, x = x' -> y = y' -> text_eqb x y = text_eqb x' y'.
Proof. now intros x x' y y' -> ->. Qed.
Lemma root_sig src : significant (tree_of src) = true.
Proof. destruct (FmtParse.parse_root _ _ _ _ (parse_of src)) as (cs & ->). reflexivity. Qed.
Lemma tree_sim src src' : bare (tree_of src) = bare (tree_of src') -> Sim eq (tree_of src) (tree_of src').
Proof. apply bare_sim, root_sig. Qed.

(** With the cursor on the same token of two texts whose trees differ in
    white space and comments only (with or without syntax errors), the answers
    are in the same places. *)
Theorem C54_goto_definition src src' pos pos' t t' :
  bare (tree_of src) = bare (tree_of src') ->
  CursorOn src pos t -> CursorOn src' pos' t' -> Counterpart (tree_of src) (tree_of src') t t' ->
  AnsR (SameResponse src src') (goto_definition src pos) (goto_definition src' pos').
Proof.
  intros Hb Hc Hc' Ht. pose proof (tree_sim _ _ Hb) as HS.
  exact (A_goto_definition eq eq_names src src' HS pos pos' t t' Hc Hc' (counterpart_R eq _ _ HS t t' Ht)).
Qed.
Theorem C54_goto_declaration src src' pos pos' t t' :
  bare (tree_of src) = bare (tree_of src') ->
  CursorOn src pos t -> CursorOn src' pos' t' -> Counterpart (tree_of src) (tree_of src') t t' ->
  AnsR (SameResponse src src') (goto_declaration src pos) (goto_declaration src' pos').
Proof.
  intros Hb Hc Hc' Ht. pose proof (tree_sim _ _ Hb) as HS.
  exact (A_goto_declaration eq eq_names src src' HS pos pos' t t' Hc Hc' (counterpart_R eq _ _ HS t t' Ht)).
Qed.
Theorem C54_goto_type_definition src src' pos pos' t t' :
  bare (tree_of src) = bare (tree_of src') ->
  CursorOn src pos t -> CursorOn src' pos' t' -> Counterpart (tree_of src) (tree_of src') t t' ->
  AnsR (SameResponse src src') (goto_type_definition src pos) (goto_type_definition src' pos').
Proof.
  intros Hb Hc Hc' Ht. pose proof (tree_sim _ _ Hb) as HS.
  exact (A_goto_type_definition eq eq_names src src' HS pos pos' t t' Hc Hc' (counterpart_R eq _ _ HS t t' Ht)).
Qed.
Theorem C54_find_references src src' pos pos' t t' incl :
  bare (tree_of src) = bare (tree_of src') ->
  CursorOn src pos t -> CursorOn src' pos' t' -> Counterpart (tree_of src) (tree_of src') t t' ->
  AnsR (Forall2 (SamePlace src src')) (find_references src pos incl) (find_references src' pos' incl).
Proof.
  intros Hb Hc Hc' Ht. pose proof (tree_sim _ _ Hb) as HS.
  exact (A_find_references eq eq_names src src' HS pos pos' t t' Hc Hc' (counterpart_R eq _ _ HS t t' Ht) incl).
Qed.
Print Assumptions C54_goto_definition.
Print Assumptions C54_goto_declaration.
Print Assumptions C54_goto_type_definition.
Print Assumptions C54_find_references.

(** ** Diagnostics *)

Lemma document_tree a : Document a -> tree_of (gtext a) = a /\ errs_of (gtext a) = [].
Proof.
  intros H. pose proof (parse_of (gtext a)) as P. rewrite (ThmComplete.C48_complete false a H) in P. injection P as E1 E2. split; congruence.
Qed.
Lemma same_eq m m' : SameText eq m m' -> m = m'.
Proof. intros [m0|x y y' z ->]; reflexivity. Qed.

Lemma bare_diagnostics a b : Document a -> Document b -> bare a = bare b ->
  AnsR (Forall2 (SameDiagnostic (gtext a) (gtext b))) (check (gtext a)) (check (gtext b)).
Proof.
  intros Ha Hb EB.
  destruct (document_tree _ Ha) as [Ta Ea]. destruct (document_tree _ Hb) as [Tb Eb].
  assert (HS : Sim eq (tree_of (gtext a)) (tree_of (gtext b))) by (apply tree_sim; now rewrite Ta, Tb).
  pose proof (A_check eq eq_names (gtext a) (gtext b) HS) as X.
  assert (H1 : AnsR (Forall2 (SameDiag eq (gtext a) (gtext b))) (check (gtext a)) (check (gtext b))).
  { apply X; [rewrite Ta; now apply document_headed|rewrite Tb; now apply document_headed|exact Ea|exact Eb]. }
  eapply AR_imp; [|exact H1]. apply F2_imp. intros d d' (P & M & L). split; [exact P|]. split; [now apply same_eq|].
  destruct L as [|l l' L]; [exact I|]. eapply F2_imp; [|exact L]. intros p p' [L1 L2]. split; [exact L1|now apply same_eq].
Qed.
(** Well-formed documents with the same words have the same diagnostics, in
    the same places. *)
Theorem C54_diagnostics a b :
  Document a -> Document b -> words a = words b ->
  AnsR (Forall2 (SameDiagnostic (gtext a) (gtext b))) (check (gtext a)) (check (gtext b)).
Proof. intros Ha Hb E. apply bare_diagnostics; auto. now apply C54_same_tree. Qed.
Print Assumptions C54_diagnostics.

(** Formatting changes no diagnostic. *)
Theorem C54_formatted a s :
  Document a -> Ordinary a -> NoDirective (directive (f_options s)) a ->
  AnsR (Forall2 (SameDiagnostic (gtext a) (format s a))) (check (gtext a)) (check (format s a)).
Proof.
  intros Ha Ho Hn. destruct (C49_reparses true a s Ha Ho Hn) as (b & P & B & D & _).
  rewrite <- (C02_no_errors_lossless _ _ _ P). now apply bare_diagnostics.
Qed.
Print Assumptions C54_formatted.

(** ** Two documents that meet the conditions *)

Definition ex_a : text := unlines ["(module (func $f (result i32) (local $x i64) local.get $x i32.eqz call $g)"; "(func $f))"]%string.
Definition ex_b : text := unlines ["(module ;; two functions"; "  (func $f(result i32)"; "    (local $x i64)"; "    local.get (; here ;) $x"; "    i32.eqz"; "    call $g"; "  )"; "  (func $f)"; ")"; ""]%string.
Definition ex_tree (src : text) : green := tree_of src.
Definition ranges_of (a : ans (list diag)) : list (text * range) :=
  match a with Ans l => map (fun d => (d_message d, d_range d)) l | _ => [] end.
Example C54_example :
  Document (ex_tree ex_a) /\ Document (ex_tree ex_b) /\ words (ex_tree ex_a) = words (ex_tree ex_b)
  /\ gtext (ex_tree ex_a) = ex_a /\ gtext (ex_tree ex_b) = ex_b
  /\ length (ranges_of (check ex_a)) = 4.
Proof.
  split; [apply ThmComplete.documentb_ok; vm_compute; reflexivity|].
  split; [apply ThmComplete.documentb_ok; vm_compute; reflexivity|].
  vm_compute. auto.
Qed.
