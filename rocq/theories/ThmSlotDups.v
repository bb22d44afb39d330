(** Definitions of the same name after a code action (C53). *)

From Coq Require Import String List NArith Bool Arith Lia.
From Verif Require Import Text Kind Green SpecParser Grammar Sem Lossless Total Lang Shape Red Unique LineIndex Cursor ThmPos Doc Ast Preorder
  SpecBinder BinderFacts Nav NavSpec NavFacts ThmNav RefFacts SpecTypes Types Check CheckFacts CheckMsgs ThmCheck ThmDup SpecAction Action ThmAction SpecRename ThmRenamed SpecRegroup SigFacts ThmRegroup SpecHeader HeaderFacts SpecSlots ThmSlots.
From Verif Require SpecComplete ThmComplete.
Import ListNotations.

Lemma gives_same m m' j d d' x : SameDefinitions m m' -> nth_error (definitions m) j = Some d -> nth_error (definitions m') j = Some d' ->
  GivesName m d x -> GivesName m' d' x.
Proof.
  intros S H H' ((s & Hs & Hd) & N). pose proof (forall2_nth _ _ _ _ _ _ S H H') as (K & I). split; [|congruence].
  exists s. split; [exact Hs|]. rewrite of_sort in *. apply filter_In in Hd as (_ & Hd). apply filter_In.
  split; [eapply nth_error_In; eauto|]. now rewrite <- (same_sort s d d' (conj K I)).
Qed.
Lemma gives_again m m' j d d' x : SameDefinitions m m' -> nth_error (definitions m) j = Some d -> nth_error (definitions m') j = Some d' ->
  GivesNameAgain m d x -> GivesNameAgain m' d' x.
Proof.
  intros S H H' (G & o & Ne & Go). split; [eapply gives_same; eauto|].
  assert (Ho : In o (definitions m)). { destruct Go as ((s & _ & Hd) & _). rewrite of_sort in Hd. now apply filter_In in Hd. }
  apply In_nth_error in Ho as (k & Hk).
  assert (L : length (definitions m) = length (definitions m')) by (clear - S; unfold SameDefinitions in S; induction S; cbn; auto).
  assert (Lk : k < length (definitions m')) by (rewrite <- L; apply nth_error_Some; congruence).
  pose proof Lk as Lk'. apply nth_error_Some in Lk. destruct (nth_error (definitions m') k) as [o'|] eqn:Ek; [|congruence].
  exists o'. split; [|eapply gives_same; eauto]. intros ->.
  assert (ND : NoDup (definitions m')) by (apply NoDup_filter, descendants_nodup).
  assert (k = j) as ->. { apply (proj1 (NoDup_nth_error _) ND); [exact Lk'|congruence]. }
  congruence.
Qed.
Lemma gives_declares src m d x : InTree (tree_of src) m -> is_node m = true -> ekind m = MODULE -> GivesName m d x -> Declares src d x m.
Proof. intros T N K ((s & Hs & Hd) & I). now apply De_def with s. Qed.

(** The j-th definition of the i-th module shares its name with another
    definition before the code action just when it does afterwards; and then
    it is reported as a duplicate (C20) both times. *)
Theorem C53_same_duplicates tree w p q l act ds :
  Document tree -> SingleResults tree -> code_action (gtext tree) w p q = Ans l -> In act l -> check (gtext tree) = Ans ds ->
  exists tree', Applied (gtext tree) (a_edits act) (gtext tree')
    /\ forall ds', check (gtext tree') = Ans ds' ->
       forall i m m' j d d' x,
         nth_error (nodes_of [MODULE] tree) i = Some m -> nth_error (nodes_of [MODULE] tree') i = Some m' ->
         nth_error (definitions m) j = Some d -> nth_error (definitions m') j = Some d' ->
         (GivesNameAgain m d x <-> GivesNameAgain m' d' x)
         /\ (GivesNameAgain m d x ->
               (exists g os, In g ds /\ Others (gtext tree) d x m os /\ Reports (gtext tree) g d x os)
               /\ (exists g os, In g ds' /\ Others (gtext tree') d' x m' os /\ Reports (gtext tree') g d' x os)).
Proof.
  intros D SR H Hin Hc. destruct (C53_same_declarations tree w p q l act D SR H Hin) as (tree' & HA & D' & HM & _).
  exists tree'. split; [exact HA|]. intros ds' Hc' i m m' j d d' x Hi Hi' Hj Hj'.
  assert (G : forall T m, Document T -> nth_error (nodes_of [MODULE] T) i = Some m -> InTree (tree_of (gtext T)) m /\ is_node m = true /\ ekind m = MODULE).
  { clear. intros T f D Hf. rewrite (document_tree T D). apply nth_error_In in Hf. unfold nodes_of in Hf. apply filter_In in Hf as (Hf & K).
    apply andb_prop in K as (K1 & K2). cbn [existsb] in K2. rewrite orb_false_r in K2. apply kind_eqb_eq in K2. now apply desc_spec in Hf. }
  pose proof (forall2_nth _ _ _ _ _ _ HM Hi Hi') as S.
  assert (R : forall T m d ds, Document T -> nth_error (nodes_of [MODULE] T) i = Some m -> check (gtext T) = Ans ds -> GivesNameAgain m d x ->
              exists g os, In g ds /\ Others (gtext T) d x m os /\ Reports (gtext T) g d x os).
  { intros T n e gs DT Hn Hg (G1 & o & Ne & G2). destruct (G T n DT Hn) as (T1 & T2 & T3).
    destruct (C20_scope_complete (gtext T) gs e x n o Hg) as (g & os & X1 & _ & X2 & X3); [now apply gives_declares|now apply gives_declares|exact Ne|]. eauto. }
  assert (I : GivesNameAgain m d x <-> GivesNameAgain m' d' x) by (split; eapply gives_again; eauto using same_sym).
  split; [exact I|]. intros X. split; [now apply R|]. apply R; [assumption..|]. now apply I.
Qed.
Print Assumptions C53_same_duplicates.

(** A concrete case. *)
Definition dups_ex : text := Text.T "(module (func $a (param i32 i64)) (func $a))".
Definition dups_out : text := Text.T "(module (func $a (param i32) (param i64)) (func $a))".
Definition the_module (src : text) : elem := hd (root_of (tree_of src)) (nodes_of [MODULE] (tree_of src)).
Definition the_def (src : text) (j : nat) : elem := nth j (definitions (the_module src)) (the_module src).
Lemma again_both m d e x : definitions_of FuncS m = [d; e] -> option_map etext (token d IDENT) = Some x -> option_map etext (token e IDENT) = Some x ->
  estart d <> estart e -> GivesNameAgain m d x /\ GivesNameAgain m e x.
Proof.
  intros F Id Ie Ne.
  assert (Gd : GivesName m d x) by (split; [exists FuncS; split; [discriminate|rewrite F; now left]|exact Id]).
  assert (Ge : GivesName m e x) by (split; [exists FuncS; split; [discriminate|rewrite F; right; now left]|exact Ie]).
  split; (split; [assumption|]); [exists e|exists d]; (split; [congruence|assumption]).
Qed.
Example C53_duplicates_case :
  Document (tree_of dups_ex) /\ gtext (tree_of dups_ex) = dups_ex /\ SingleResults (tree_of dups_ex)
  /\ code_action dups_ex all_wanted (0, 20) (0, 20)
     = Ans [mk_action (Text.T "Split parameters") [((0, 17), (0, 32), Text.T "(param i32) (param i64)")]]
  /\ GivesNameAgain (the_module dups_ex) (the_def dups_ex 0) (Text.T "$a") /\ GivesNameAgain (the_module dups_ex) (the_def dups_ex 1) (Text.T "$a")
  /\ abind (check dups_ex) (fun ds => Ans (map d_range ds)) = Ans [((0, 14), (0, 16)); ((0, 40), (0, 42))]
  /\ abind (check dups_out) (fun ds => Ans (map d_range ds)) = Ans [((0, 14), (0, 16)); ((0, 48), (0, 50))].
Proof.
  assert (X : GivesNameAgain (the_module dups_ex) (the_def dups_ex 0) (Text.T "$a") /\ GivesNameAgain (the_module dups_ex) (the_def dups_ex 1) (Text.T "$a")).
  { apply again_both; [vm_compute; reflexivity|vm_compute; reflexivity|vm_compute; reflexivity|vm_compute; discriminate]. }
  split; [apply ThmComplete.documentb_ok; vm_compute; reflexivity|]. split; [vm_compute; reflexivity|].
  split; [apply single_resultsb_ok; vm_compute; reflexivity|]. split; [vm_compute; reflexivity|].
  split; [apply X|]. split; [apply X|]. split; vm_compute; reflexivity.
Qed.
