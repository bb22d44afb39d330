(** Operands of instructions: property C30. *)

From Coq Require Import String List NArith Bool Arith Lia Ascii.
From Verif Require Import Text Kind Green SpecParser Lexer LexerFacts Winnow Grammar Sem Lossless Total
  Bounds Lang TokForm Shape ThmParser Red Unique LineIndex Cursor Doc Ast Binder Preorder SpecBinder BinderFacts BinderDefs Blocks
  Nav NavSpec NavFacts ThmNav RefFacts ThmRefs SymCases TokKinds InstrMeta Types Check CheckFacts CheckMsgs ThmCheck.
Import ListNotations.

(** ** Specification *)

(** The forms of an operand, the tokens it may start with, and what is said
    when it starts with another one. *)
Inductive form : Type := FIndex | FInt | FFloat | FMem.
Definition starts (f : form) : list kind :=
  match f with FIndex => [IDENT; INT] | FInt => [INT] | FFloat => [FLOAT; INT] | FMem => [MEM_ARG] end.
Definition complaint (f : form) : text :=
  Text.T match f with
         | FIndex => "expected identifier or unsigned integer"
         | FInt => "expected integer"
         | FFloat => "expected floating-point number"
         | FMem => "expected memory argument"
         end.

(** Which forms an instruction takes, by its name. *)
Fixpoint drop_to_dot (s : string) : string :=
  match s with EmptyString => EmptyString | String c r => if Ascii.eqb c "." then r else drop_to_dot r end.
Fixpoint contains (p s : string) : bool :=
  prefix p s || match s with EmptyString => false | String _ r => contains p r end.
Definition immediates (s : string) : list form :=
  let op := drop_to_dot s in
  if existsb (String.eqb s) ["call"; "br"; "br_if"; "ref.func"; "memory.init"; "data.drop"; "elem.drop"]%string then [FIndex]
  else if existsb (String.eqb s) ["table.init"; "table.copy"]%string then [FIndex; FIndex]
  else if prefix "local." s || prefix "global." s || prefix "table." s then [FIndex]
  else if prefix "const" op then if prefix "f" s then [FFloat] else [FInt]
  else if prefix "load" op || prefix "store" op then
         if contains "_lane" op then [FMem; FIndex] else if contains "_zero" op then [] else [FMem]
  else if contains "_lane" op || prefix "shuffle" op then [FIndex]
  else [].

(** The first token of a node. *)
Inductive FirstToken : elem -> elem -> Prop :=
| FT_here e : is_node e = false -> FirstToken e e
| FT_down e c r t : children_with_tokens e = c :: r -> FirstToken c t -> FirstToken e t.

(** ** Facts *)

Lemma first_token_spec e t : first_token e = Some t <-> FirstToken e t.
Proof.
  unfold first_token. destruct e as [g o us]. cbn [el off ups]. revert o us. induction g as [k x|k cs IH] using green_ind'; intros o us.
  - cbn. split.
    + intros H. injection H as <-. now constructor.
    + intros H. inversion H as [? ?|? ? ? ? E]; subst; [reflexivity|]. discriminate.
  - destruct cs as [|c cs]; cbn [first_token_of].
    + split; [discriminate|]. intros H. inversion H as [? E|? ? ? ? E]; subst; discriminate.
    + inversion IH as [|? ? H1 _]. subst. rewrite H1. split.
      * intros H. eapply FT_down; [reflexivity|exact H].
      * intros H. inversion H as [? E|? ? ? ? E]; subst; [discriminate|]. unfold children_with_tokens in E. cbn [el kids gchildren off ups] in E.
        injection E as <- _. exact H0.
Qed.
Definition form_pair (f : form) : list kind * string :=
  match f with FIndex => expected_idx | FInt => expected_int | FFloat => expected_float | FMem => expected_mem end.
Definition forms_of (nm : text) : list form :=
  if name_in nm idx_instrs then [FIndex]
  else if name_in nm int_instrs then [FInt]
  else if name_in nm float_instrs then [FFloat]
  else if name_in nm idx2_instrs then [FIndex; FIndex]
  else if name_in nm mem_instrs then [FMem]
  else if name_in nm lane_instrs then [FIndex]
  else if name_in nm mem_lane_instrs then [FMem; FIndex]
  else [].
Lemma operand_forms_of nm : operand_forms nm = map form_pair (forms_of nm).
Proof. unfold operand_forms, forms_of. repeat destruct (name_in _ _); reflexivity. Qed.
Lemma nth_combine {A B} (l : list A) (m : list B) p :
  In p (combine l m) <-> exists i, nth_error l i = Some (fst p) /\ nth_error m i = Some (snd p).
Proof.
  revert m. induction l as [|a l IH]; intros m; cbn [combine].
  - split; [intros []|intros ([|i] & H & _); discriminate].
  - destruct m as [|b m]; cbn [In].
    + split; [intros []|intros ([|i] & _ & H); discriminate].
    + rewrite IH. split.
      * intros [<-|(i & H1 & H2)]; [exists 0; auto|exists (S i); auto].
      * intros ([|i] & H1 & H2); cbn in H1, H2; [left; destruct p; cbn in *; congruence|right; eauto].
Qed.

(** A wrong operand: the [i]-th operand [o] of the instruction [n] starts with
    [t], which does not fit the form [f] that the instruction wants there. *)
Definition WrongOperand (n : elem) (t : elem) (f : form) (forms : text -> list form) : Prop :=
  exists nt i o, ekind n = PLAIN_INSTR /\ token n INSTR_NAME = Some nt
    /\ nth_error (forms (etext nt)) i = Some f
    /\ nth_error (filter (fun c => kind_eqb (ekind c) OPERAND) (children n)) i = Some o
    /\ FirstToken o t /\ ~ In (ekind t) (starts f).

Lemma literal_spec src n d : InTree (tree_of src) n -> is_node n = true -> ekind n = PLAIN_INSTR ->
  (among d (literal_operands src n) <->
   exists t f, WrongOperand n t f forms_of
     /\ RangeOf src t (d_range d) /\ d_message d = complaint f /\ d_related d = None).
Proof.
  intros T N K. unfold literal_operands, instr_name_of.
  destruct (token n INSTR_NAME) as [nt|] eqn:Hn; cbn [option_map].
  2: { split; [intros (l & E & Hd); injection E as <-; destruct Hd|].
       intros (t & f & (nt & i & o & _ & Hn' & _) & _). congruence. }
  rewrite concat_among_bind.
  2: { intros [f o] Ho. apply in_combine_r in Ho. destruct (in_tree_childs src n OPERAND o T Ho) as (To & _).
       unfold check_operand. cbn [fst snd]. destruct (first_token o) as [t|] eqn:F; [|eauto]. destruct existsb; [eauto|].
       destruct (diag_at_ok src t (Text.T (snd f)) (first_token_in src o t To F)) as (d' & -> & _). cbn. eauto. }
  rewrite operand_forms_of.
  assert (Hd : forall f t, complaint f = Text.T (snd (form_pair f)) /\ starts f = fst (form_pair f)
               /\ (existsb (kind_eqb (ekind t)) (fst (form_pair f)) = true <-> In (ekind t) (starts f))).
  { intros f t. split; [destruct f; reflexivity|]. split; [destruct f; reflexivity|].
    rewrite existsb_exists. assert (E : fst (form_pair f) = starts f) by (destruct f; reflexivity). rewrite E. split.
    - intros (k & Hk & Ek). apply kind_eqb_eq in Ek. congruence.
    - intros Hk. exists (ekind t). split; [exact Hk|now apply kind_eqb_eq]. }
  split.
  - intros ((fp & o) & Hc & l & E & Hl). apply nth_combine in Hc as (i & H1 & H2). cbn [fst snd] in H1, H2.
    rewrite nth_error_map in H1. destruct (nth_error (forms_of (etext nt)) i) as [f|] eqn:Hf; [|discriminate].
    injection H1 as <-. unfold check_operand in E. cbn [fst snd] in E.
    destruct (first_token o) as [t|] eqn:F; [|injection E as <-; destruct Hl]. destruct (Hd f t) as (C & _ & S).
    destruct (existsb _ _) eqn:Ex; [injection E as <-; destruct Hl|].
    assert (To : InTree (tree_of src) o) by (apply (in_tree_childs src n OPERAND o T); eapply nth_error_In; eauto).
    destruct (diag_at_ok src t (Text.T (snd (form_pair f))) (first_token_in src o t To F)) as (d' & Ed & R & M & L).
    rewrite Ed in E. cbn [abind] in E. injection E as <-. destruct Hl as [<-|[]].
    exists t, f. split; [|rewrite C; auto]. exists nt, i, o. split; [exact K|]. split; [exact Hn|]. split; [exact Hf|]. split; [exact H2|].
    split; [now apply first_token_spec|]. intros X. apply S in X. congruence.
  - intros (t & f & (nt' & i & o & _ & Hn' & Hf & Ho & F & S) & R & M & L).
    assert (nt' = nt) as -> by congruence. exists (form_pair f, o). destruct (Hd f t) as (C & _ & S'). split.
    + apply nth_combine. exists i. cbn [fst snd]. split; [now rewrite nth_error_map, Hf|exact Ho].
    + assert (To : InTree (tree_of src) o) by (apply (in_tree_childs src n OPERAND o T); eapply nth_error_In; exact Ho).
      apply first_token_spec in F. unfold check_operand. cbn [fst snd]. rewrite F.
      destruct existsb eqn:Ex; [destruct S; now apply S'|].
      destruct (diag_at_ok src t (Text.T (snd (form_pair f))) (first_token_in src o t To F)) as (d' & -> & R' & M' & L').
      cbn [abind]. exists [d']. split; [reflexivity|]. left. destruct d as [r m l], d' as [r' m' l']. cbn in *. subst. rewrite C. f_equal.
      destruct R as [R1 R2], R' as [R1' R2'], r, r'. cbn [fst snd] in *. congruence.
Qed.

(** ** The property *)

Lemma text_of_inj a b : Text.T a = Text.T b -> a = b.
Proof.
  revert b. induction a as [|c a IH]; intros [|c' b]; cbn; try discriminate; [reflexivity|].
  intros H. injection H as H1 H2. f_equal; [|now apply IH].
  rewrite <- (ascii_N_embedding c), <- (ascii_N_embedding c'). now rewrite H1.
Qed.
(** The forms wanted by the checker, by name: for every instruction in the
    table and for [call], [br] and [br_if], they are as the name tells; for
    all other names there are none. *)
Definition checked_names : list string := ["call"; "br"; "br_if"]%string ++ map fst instr_table.
Theorem C30_forms nm :
  match find (fun s => text_eqb nm (Text.T s)) checked_names with
  | Some s => forms_of nm = immediates s
  | None => forms_of nm = []
  end.
Proof.
  assert (H : forallb (fun s => if list_eq_dec (fun a b : form => ltac:(decide equality)) (forms_of (Text.T s)) (immediates s) then true else false)
                checked_names = true) by (vm_compute; reflexivity).
  rewrite forallb_forall in H.
  destruct (find _ checked_names) as [s|] eqn:F.
  - apply find_some in F as [F E]. apply text_eqb_eq in E. subst nm. specialize (H s F). destruct list_eq_dec; [assumption|discriminate].
  - assert (X : forall l, (forall s, In s l -> In s checked_names) -> name_in nm l = false).
    { intros l Hl. unfold name_in. apply not_true_iff_false. intros E. apply existsb_exists in E as (s & Hs & E).
      pose proof (find_none _ _ F s (Hl s Hs)) as Y. cbn in Y. congruence. }
    assert (Y : forall l, forallb (fun s => existsb (String.eqb s) checked_names) l = true -> name_in nm l = false).
    { intros l Hl. apply X. rewrite forallb_forall in Hl. intros s Hs. apply Hl in Hs. apply existsb_exists in Hs as (s' & Hs' & E).
      apply String.eqb_eq in E. congruence. }
    unfold forms_of. rewrite !Y by (vm_compute; reflexivity). reflexivity.
Qed.

(** The diagnostics of this kind are exactly those of the wrong operands. *)
Theorem C30_operands_exact src ds d : check src = Ans ds ->
  (In d ds /\ In (d_message d) (map complaint [FIndex; FInt; FFloat; FMem]) <->
   exists n t f, InTree (tree_of src) n /\ is_node n = true /\ WrongOperand n t f forms_of
     /\ RangeOf src t (d_range d) /\ d_message d = complaint f /\ d_related d = None).
Proof.
  intros H.
  assert (X : In (d_message d) (map complaint [FIndex; FInt; FFloat; FMem]) <-> classify (d_message d) = CLiteral).
  { split; [apply literal_class|]. intros C. change (map complaint [FIndex; FInt; FFloat; FMem]) with literal_msgs.
    assert (E : forall m, classify m = CLiteral -> existsb (text_eqb m) literal_msgs = true).
    { clear. intros m C. destruct (existsb (text_eqb m) literal_msgs) eqn:E; [reflexivity|exfalso].
      unfold classify in C. rewrite E in C. destruct m as [|c m]; [discriminate|].
      destruct c as [|p]; [discriminate|]. repeat (destruct p as [p|p|]; try discriminate). }
    apply E in C. apply existsb_exists in C as (m & Hm & Em). apply text_eqb_eq in Em. now rewrite Em. }
  rewrite X, (check_literal src ds d H). split.
  - intros (n & T & N & K & A). apply (literal_spec src n d T N K) in A as (t & f & A). exists n, t, f. auto.
  - intros (n & t & f & T & N & W & A). assert (K : ekind n = PLAIN_INSTR) by (destruct W as (? & ? & ? & K & _); exact K).
    exists n. split; [exact T|]. split; [exact N|]. split; [exact K|]. apply literal_spec; auto. eauto.
Qed.

(** ** Examples and refutations *)

Definition literals (src : text) : option (list (range * text)) :=
  match check src with
  | Ans ds => Some (map (fun d => (d_range d, d_message d))
                      (filter (fun d => match classify (d_message d) with CLiteral => true | _ => false end) ds))
  | _ => None
  end.
Example C30_example :
  literals (Text.T "(module (func (i32.const 1.5) (call 1.5) (f32.const $x) (drop (i32.load 1))))")
  = Some [(((0, 25), (0, 28)), complaint FInt); (((0, 36), (0, 39)), complaint FIndex);
          (((0, 52), (0, 54)), complaint FFloat); (((0, 72), (0, 73)), complaint FMem)].
Proof. vm_compute. reflexivity. Qed.
(** A missing operand and a negative index are accepted. *)
Theorem C30_missing_refuted :
  report (Text.T "(module (func call i32.const) (func (call -1)))") = Some [].
Proof. vm_compute. reflexivity. Qed.
(** A memory argument may be left out in WebAssembly, but then the address
    operand is taken for it. *)
Theorem C30_optional_refuted :
  report (Text.T "(module (func (i32.load (i32.const 0))))")
  = Some [(((0, 24), (0, 25)), Text.T "expected memory argument");
          (((0, 14), (0, 38)), Text.T "expected 2 operands, found 0")].
Proof. vm_compute. reflexivity. Qed.
