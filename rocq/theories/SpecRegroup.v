(** Vocabulary for the effect of code actions on the tree (C53). *)

From Coq Require Import String List.
From Verif Require Import Text Kind Green SpecParser.
Import ListNotations.

(** [tree'] is [tree] with one subtree [g] replaced by [g']. *)
Inductive At (g g' : green) : green -> green -> Prop :=
| At_here : At g g' g g'
| At_in k l c c' r : At g g' c c' -> At g g' (Node k (l ++ c :: r)) (Node k (l ++ c' :: r)).

Definition node_of (k : kind) (g : green) : bool :=
  match g with Node k' _ => kind_eqb k' k | Tok _ _ => false end.
(** The value types of the groups of kind [k] in a list of children. *)
Definition types_in (k : kind) (l : list green) : list green :=
  flat_map (fun g => match g with Node k' cs => if kind_eqb k' k then filter (node_of VAL_TYPE) cs else [] | Tok _ _ => [] end) l.

(** Between the groups, no identifier; or a group of kind [k] without an
    identifier. *)
Definition Unnamed (k : kind) (g : green) : Prop :=
  match g with Node k' cs => k' = k /\ forall c, In c cs -> gkind c <> IDENT | Tok k' _ => k' <> IDENT end.
(** In one node, groups of kind [k] (parameters, results or locals) without
    identifiers next to each other are replaced by other such groups with the
    same types in the same order. *)
Definition Regrouped (tree tree' : green) : Prop :=
  exists k p l m m' r, In k [PARAM; RESULT; LOCAL]
    /\ At (Node p (l ++ m ++ r)) (Node p (l ++ m' ++ r)) tree tree'
    /\ (exists cs, In (Node k cs) m) /\ (exists cs, In (Node k cs) m') /\ Forall (Unnamed k) (m ++ m')
    /\ types_in k m = types_in k m'.

(** No block type is a result with two or more types. *)
Definition SingleResults (tree : green) : Prop :=
  forall bs rs, Sub tree (Node BLOCK_TYPE bs) -> In (Node RESULT rs) bs -> length (filter (node_of VAL_TYPE) rs) < 2.
