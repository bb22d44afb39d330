(** The table of instructions (C51). *)

From Coq Require Import String List NArith Bool Arith.
From Verif Require Import Text Kind Green SpecParser Lexer Red LineIndex Cursor Doc Ast InstrMeta Types Check SpecTypes SigFacts
  InstrNames Completion SpecCompletion ThmCompletion SpecInstr Hover.
Import ListNotations.

(** The types [ps], [rs] (where [None] stands for a type that depends on the
    operands) are those the checker uses for the name. *)
Definition op_of (t : option valtype) : optype := match t with Some v => OVal v | None => OGeneric end.
Definition HasType (x : text) (ps rs : list (option valtype)) : Prop :=
  exists m, Row x m /\ m_params m = map op_of ps /\ m_results m = map op_of rs.

(** All instructions with a type of their own. *)
Definition typed : list (string * list (option valtype) * list (option valtype)) :=
  map (fun '(n, ps, rs) => (n, map Some ps, map Some rs)) signatures ++ generic.

Definition optype_eqb (a b : optype) : bool :=
  match a, b with
  | OGeneric, OGeneric => true
  | OVal x, OVal y => String.eqb (ty_name x) (ty_name y)
  | _, _ => false
  end.
Lemma optype_eqb_ok a b : optype_eqb a b = true -> a = b.
Proof. destruct a as [[]|], b as [[]|]; cbn; congruence || (intros E; apply String.eqb_eq in E; discriminate). Qed.
Lemma op_of_inj l : forall m, map op_of l = map op_of m -> l = m.
Proof.
  induction l as [|a l IH]; intros [|b m] H; cbn in H; try congruence. injection H as A B. apply IH in B.
  destruct a, b; cbn in A; congruence.
Qed.
Fixpoint ops_eqb (l m : list optype) : bool :=
  match l, m with
  | [], [] => true
  | a :: l, b :: m => optype_eqb a b && ops_eqb l m
  | _, _ => false
  end.
Lemma ops_eqb_ok l : forall m, ops_eqb l m = true -> l = m.
Proof.
  induction l as [|a l IH]; intros [|b m] H; cbn in H; try congruence. apply andb_prop in H as (A & B).
  apply optype_eqb_ok in A. apply IH in B. congruence.
Qed.

Definition typed_ok (e : string * list (option valtype) * list (option valtype)) : bool :=
  let '(n, ps, rs) := e in
  match meta_of (Text.T n) with
  | Some m => ops_eqb (m_params m) (map op_of ps) && ops_eqb (m_results m) (map op_of rs)
  | None => false
  end.
Lemma all_typed : forallb typed_ok typed = true.
Proof. vm_compute. reflexivity. Qed.
Lemma all_listed : forallb (fun p => existsb (fun e => String.eqb (fst p) (fst (fst e))) typed) instr_table = true.
Proof. vm_compute. reflexivity. Qed.

(** Every instruction of WebAssembly that has a type of its own is known with
    exactly that type, and nothing else is known. *)
Theorem C51_types x ps rs : HasType x ps rs <-> exists n, In (n, ps, rs) typed /\ x = Text.T n.
Proof.
  assert (K : forall n ps rs, In (n, ps, rs) typed -> HasType (Text.T n) ps rs).
  { clear. intros n ps rs H. pose proof all_typed as A. rewrite forallb_forall in A. apply A in H. unfold typed_ok in H.
    destruct (meta_of (Text.T n)) as [m|] eqn:M; [|discriminate]. apply andb_prop in H as (A1 & A2).
    apply ops_eqb_ok in A1, A2. exists m. apply meta_row in M. auto. }
  split; [|intros (n & H & ->); now apply K].
  intros (m & (n & Hin & E) & P & R). subst x. exists n. split; [|reflexivity].
  pose proof all_listed as A. rewrite forallb_forall in A. specialize (A _ Hin). cbn [fst] in A.
  apply existsb_exists in A as (((n' & ps') & rs') & H & Q). cbn [fst] in Q. apply String.eqb_eq in Q. subst n'.
  destruct (K _ _ _ H) as (m' & W & P' & R').
  assert (m' = m) by (assert (X : meta_of (Text.T n) = Some m) by (apply meta_row; now exists n); apply meta_row in W; congruence). subst m'.
  replace ps with ps'; [replace rs with rs'; [exact H|]|]; apply op_of_inj; congruence.
Qed.
(** No instruction has two types. *)
Theorem C51_types_unique x ps rs ps' rs' : HasType x ps rs -> HasType x ps' rs' -> ps = ps' /\ rs = rs'.
Proof.
  intros (m & W & P & R) (m' & W' & P' & R'). apply meta_row in W, W'.
  assert (m = m') by congruence. subst m'. split; apply op_of_inj; congruence.
Qed.

(** ** Binary opcodes, shown on hover *)

Definition codes_ok (l : list (string * instr_meta)) : bool :=
  forallb (fun p => forallb (fun q => negb (String.eqb (m_bin_op (snd p)) (m_bin_op (snd q))) || String.eqb (fst p) (fst q)) l) l.
Lemma codes : codes_ok instr_table = true.
Proof. vm_compute. reflexivity. Qed.
Lemma codes_sound l s m s' m' : codes_ok l = true -> In (s, m) l -> In (s', m') l -> m_bin_op m = m_bin_op m' -> s = s'.
Proof.
  unfold codes_ok. intros C A B E. rewrite forallb_forall in C. apply C in A. rewrite forallb_forall in A. apply A in B. cbn [fst snd] in B.
  rewrite E, String.eqb_refl in B. now apply String.eqb_eq.
Qed.
(** Two instructions never have the same opcode. *)
Theorem C51_opcodes x y m m' : Row x m -> Row y m' -> m_bin_op m = m_bin_op m' -> x = y.
Proof.
  intros (s & Hs & <-) (s' & Hs' & <-) E. f_equal. exact (codes_sound _ s m s' m' codes Hs Hs' E).
Qed.

(** ** Completion *)

(** Instructions whose type is that of a block, a label or a function. *)
Definition structured : list string :=
  ["unreachable"; "nop"; "block"; "loop"; "if"; "else"; "end"; "br"; "br_if"; "br_table"; "return"; "call"; "call_indirect"]%string.
Definition instructions : list string := map (fun e => fst (fst e)) typed ++ structured.

Lemma all_offered : forallb (fun s => existsb (String.eqb s) ("i8x16.mul"%string :: instructions)) instr_names = true.
Proof. vm_compute. reflexivity. Qed.

(** Every operator offered is an instruction, but for one name. *)
Theorem C51_offered src pos its it : completion src pos = Ans its -> In it its -> c_kind it = IOperator ->
  exists n, c_label it = Text.T n /\ (In n instructions \/ n = "i8x16.mul"%string).
Proof.
  intros H Hi K. destruct (C36_offers_in_scope src pos its it H Hi) as (t & _ & [W|S]).
  - destruct W as [s Hs|s Hs|s Hs|s Hs]; cbn [c_kind] in K; try discriminate. exists s. split; [reflexivity|].
    pose proof all_offered as A. rewrite forallb_forall in A. apply A in Hs. apply existsb_exists in Hs as (n & Hn & E).
    apply String.eqb_eq in E. subst n. destruct Hn as [<-|Hn]; auto.
  - destruct S as (a & l & p & _ & _ & _ & O). exfalso. destruct a as [[]| |]; destruct O as (O & _); congruence.
Qed.

(** The list of words offered has one that is no instruction, and lacks many
    that are. *)
Theorem C51_only_instructions_refuted :
  ~ (forall src pos its it, completion src pos = Ans its -> In it its -> c_kind it = IOperator -> exists n, c_label it = Text.T n /\ In n instructions).
Proof.
  intros H. set (src := Text.T "(module (func ("). set (pos := (0, 15)).
  assert (C : exists its it, completion src pos = Ans its /\ In it its /\ c_kind it = IOperator /\ c_label it = Text.T "i8x16.mul").
  { destruct (completion src pos) as [its| |] eqn:E; [|vm_compute in E; discriminate|vm_compute in E; discriminate].
    assert (F : existsb (fun it => match c_kind it with IOperator => text_eqb (c_label it) (Text.T "i8x16.mul") | _ => false end)
                  (match completion src pos with Ans l => l | _ => [] end) = true) by (vm_compute; reflexivity).
    rewrite E in F. apply existsb_exists in F as (it & Hi & F). exists its, it. destruct (c_kind it) eqn:KK; try discriminate F.
    apply text_eqb_eq in F. split; [reflexivity|split; [exact Hi|split; [reflexivity|exact F]]]. }
  destruct C as (its & it & C & Hi & K & L). destruct (H src pos its it C Hi K) as (n & Ln & Hn).
  rewrite L in Ln. apply T_inj in Ln. subst n.
  assert (B : existsb (String.eqb "i8x16.mul") instructions = false) by (vm_compute; reflexivity).
  apply Bool.not_true_iff_false in B. apply B. apply existsb_exists. eexists. split; [exact Hn|]. apply String.eqb_refl.
Qed.
Theorem C51_all_offered_refuted :
  ~ (forall n, In n instructions -> forall src pos its, completion src pos = Ans its ->
       (exists it, In it its /\ c_kind it = IOperator) -> exists it, In it its /\ c_label it = Text.T n).
Proof.
  intros H. set (src := Text.T "(module (func ("). set (pos := (0, 15)).
  destruct (completion src pos) as [its| |] eqn:E; [|vm_compute in E; discriminate|vm_compute in E; discriminate].
  assert (Q : match completion src pos with
              | Ans l => existsb (fun it => match c_kind it with IOperator => true | _ => false end) l
                         && negb (existsb (fun it => text_eqb (c_label it) (Text.T "memory.copy")) l)
              | _ => false end = true) by (vm_compute; reflexivity).
  rewrite E in Q. apply andb_prop in Q as (Q1 & Q2).
  destruct (H "memory.copy"%string) with (src := src) (pos := pos) (its := its) as (it & Hi & L); [|exact E| |].
  - assert (B : existsb (String.eqb "memory.copy") instructions = true) by (vm_compute; reflexivity).
    apply existsb_exists in B as (n & Hn & B). apply String.eqb_eq in B. now subst n.
  - apply existsb_exists in Q1 as (it & Hi & K). exists it. split; [exact Hi|]. destruct (c_kind it); (reflexivity || discriminate K).
  - apply negb_true_iff, Bool.not_true_iff_false in Q2. apply Q2. apply existsb_exists. exists it. split; [exact Hi|]. rewrite L. apply text_eqb_refl.
Qed.

(** ** Examples *)

Example C51_case_types :
  HasType (Text.T "i64.extend_i32_s") [Some VI32] [Some VI64]
  /\ HasType (Text.T "f64.ge") [Some VF64; Some VF64] [Some VI32]
  /\ HasType (Text.T "i64.store32") [Some VI32; Some VI64] []
  /\ HasType (Text.T "i32x4.dot_i16x8_s") [Some VV128; Some VV128] [Some VV128]
  /\ HasType (Text.T "select") [None; None; Some VI32] [None]
  /\ ~ (exists ps rs, HasType (Text.T "i8x16.mul") ps rs).
Proof.
  repeat match goal with |- HasType _ _ _ /\ _ => split end.
  1-5: eexists; split; [apply meta_row; vm_compute; reflexivity|split; reflexivity].
  intros (ps & rs & m & W & _). apply meta_row in W. vm_compute in W. discriminate.
Qed.
Example C51_case_offered : exists its it, completion (Text.T "(module (func (") (0, 15) = Ans its
  /\ In it its /\ c_kind it = IOperator /\ c_label it = Text.T "i32.add".
Proof.
  destruct (completion (Text.T "(module (func (") (0, 15)) as [its| |] eqn:E; [|vm_compute in E; discriminate|vm_compute in E; discriminate].
  assert (F : existsb (fun it => match c_kind it with IOperator => text_eqb (c_label it) (Text.T "i32.add") | _ => false end)
                (match completion (Text.T "(module (func (") (0, 15) with Ans l => l | _ => [] end) = true) by (vm_compute; reflexivity).
  rewrite E in F. apply existsb_exists in F as (it & Hi & F). exists its, it. destruct (c_kind it) eqn:KK; try discriminate F.
  apply text_eqb_eq in F. split; [reflexivity|split; [exact Hi|split; [reflexivity|exact F]]].
Qed.
Example C51_case_opcodes : exists m m', Row (Text.T "i32.add") m /\ Row (Text.T "i32x4.add") m' /\ m_bin_op m <> m_bin_op m'.
Proof. do 2 eexists. repeat split; [apply meta_row; vm_compute; reflexivity|apply meta_row; vm_compute; reflexivity|vm_compute; discriminate]. Qed.
