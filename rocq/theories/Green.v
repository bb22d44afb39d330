(** Green trees (rowan [GreenNode] / [GreenToken]).

    [tok] and [node] of crates/parser/src/parser/mod.rs:59-69 are the two
    constructors. *)

From Coq Require Import List NArith Bool Arith Lia.
From Verif Require Import Text Kind.
Import ListNotations.

Inductive green : Type :=
| Tok (k : kind) (t : text)
| Node (k : kind) (cs : list green).

Definition gkind (g : green) : kind :=
  match g with Tok k _ => k | Node k _ => k end.

(** Text of a tree: the concatenation of its tokens' texts
    (rowan [SyntaxNode::text], [Display]). *)
Fixpoint gtext (g : green) : text :=
  match g with
  | Tok _ t => t
  | Node _ cs => concat (map gtext cs)
  end.

Definition gtexts (l : list green) : text := concat (map gtext l).

(** Byte length of a tree ([GreenNode::text_len]). *)
Fixpoint glen (g : green) : nat :=
  match g with
  | Tok _ t => tlen t
  | Node _ cs => list_sum (map glen cs)
  end.

Definition glens (l : list green) : nat := list_sum (map glen l).

(** Induction principle with an hypothesis for every child. *)
Section GreenInd.
  Variable P : green -> Prop.
  Hypothesis HT : forall k t, P (Tok k t).
  Hypothesis HN : forall k cs, Forall P cs -> P (Node k cs).
  Fixpoint green_ind' (g : green) : P g :=
    match g with
    | Tok k t => HT k t
    | Node k cs =>
        HN k cs ((fix go (l : list green) : Forall P l :=
                    match l with
                    | [] => Forall_nil P
                    | x :: r => Forall_cons x (green_ind' x) (go r)
                    end) cs)
    end.
End GreenInd.

(** All tokens of a tree, in source order. *)
Fixpoint gtokens (g : green) : list (kind * text) :=
  match g with
  | Tok k t => [(k, t)]
  | Node _ cs => concat (map gtokens cs)
  end.

Definition gtokenss (l : list green) : list (kind * text) := concat (map gtokens l).

Lemma gtexts_app a b : gtexts (a ++ b) = gtexts a ++ gtexts b.
Proof. unfold gtexts. now rewrite map_app, concat_app. Qed.

Lemma gtexts_cons g l : gtexts (g :: l) = gtext g ++ gtexts l.
Proof. reflexivity. Qed.

Lemma gtext_node k cs : gtext (Node k cs) = gtexts cs.
Proof. reflexivity. Qed.

Lemma glens_app a b : glens (a ++ b) = glens a + glens b.
Proof. unfold glens. rewrite map_app. induction (map glen a); simpl; lia. Qed.

Lemma glen_tlen g : glen g = tlen (gtext g).
Proof.
  induction g as [k t|k cs IH] using green_ind'; [reflexivity|].
  simpl. induction IH as [|x l Hx _ IHl]; [reflexivity|].
  simpl. rewrite tlen_app, Hx, IHl. reflexivity.
Qed.

Lemma glens_tlen l : glens l = tlen (gtexts l).
Proof.
  induction l as [|x l IH]; [reflexivity|].
  unfold glens, gtexts in *. simpl. rewrite tlen_app, glen_tlen, IH. reflexivity.
Qed.

Lemma gtokenss_app a b : gtokenss (a ++ b) = gtokenss a ++ gtokenss b.
Proof. unfold gtokenss. now rewrite map_app, concat_app. Qed.

Lemma gtext_tokens g : gtext g = concat (map snd (gtokens g)).
Proof.
  induction g as [k t|k cs IH] using green_ind'; simpl; [now rewrite app_nil_r|].
  induction IH as [|x l Hx _ IHl]; [reflexivity|].
  simpl. rewrite map_app, concat_app, Hx, IHl. reflexivity.
Qed.
