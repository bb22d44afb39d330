(** Characters and text.

    A Rust [&str] is modelled by the list of its Unicode scalar values.
    Offsets in the code are UTF-8 byte offsets ([rowan::TextSize],
    [winnow::Located]); [tlen] is the byte length of a text. *)

From Coq Require Import List NArith Bool Ascii String Arith Lia.
Import ListNotations.

Definition char := N.
Definition text := list char.

(** Byte length of the UTF-8 encoding of a scalar value
    (Rust [char::len_utf8]). *)
Definition utf8_len (c : char) : nat :=
  if N.ltb c 128%N then 1
  else if N.ltb c 2048%N then 2
  else if N.ltb c 65536%N then 3
  else 4.

(** Number of UTF-16 code units of a scalar value (Rust [char::len_utf16]). *)
Definition utf16_len (c : char) : nat :=
  if N.ltb c 65536%N then 1 else 2.

Fixpoint tlen (t : text) : nat :=
  match t with
  | [] => 0
  | c :: r => utf8_len c + tlen r
  end.

Fixpoint tlen16 (t : text) : nat :=
  match t with
  | [] => 0
  | c :: r => utf16_len c + tlen16 r
  end.

(** String literals of the Rust source. *)
Fixpoint T (s : string) : text :=
  match s with
  | EmptyString => []
  | String a r => N_of_ascii a :: T r
  end.

Definition ch (a : ascii) : char := N_of_ascii a.

Fixpoint text_eqb (a b : text) : bool :=
  match a, b with
  | [], [] => true
  | x :: a', y :: b' => N.eqb x y && text_eqb a' b'
  | _, _ => false
  end.

(** [strip_prefix p t]: [Some r] when [t = p ++ r] (Rust [str::strip_prefix]). *)
Fixpoint strip_prefix (p t : text) : option text :=
  match p, t with
  | [], _ => Some t
  | x :: p', y :: t' => if N.eqb x y then strip_prefix p' t' else None
  | _ :: _, [] => None
  end.

Definition starts_with (p t : text) : bool :=
  match strip_prefix p t with Some _ => true | None => false end.

(** ** Character classes (Rust [char::is_ascii_*]). *)

Definition c_lf : char := 10%N.
Definition c_cr : char := 13%N.
Definition c_ff : char := 12%N.
Definition c_tab : char := 9%N.
Definition c_space : char := 32%N.
Definition c_quote : char := 34%N.     (* double quote *)
Definition c_bslash : char := 92%N.
Definition c_lparen : char := 40%N.
Definition c_rparen : char := 41%N.
Definition c_dollar : char := 36%N.
Definition c_semi : char := 59%N.
Definition c_lbrace : char := 123%N.
Definition c_rbrace : char := 125%N.
Definition c_u : char := 117%N.
Definition c_underscore : char := 95%N.
Definition c_plus : char := 43%N.
Definition c_minus : char := 45%N.
Definition c_dot : char := 46%N.
Definition c_eq : char := 61%N.

Definition in_range (lo hi c : char) : bool := N.leb lo c && N.leb c hi.

Definition is_ascii_lowercase (c : char) : bool := in_range 97%N 122%N c.
Definition is_ascii_uppercase (c : char) : bool := in_range 65%N 90%N c.
Definition is_ascii_digit (c : char) : bool := in_range 48%N 57%N c.
Definition is_ascii_hexdigit (c : char) : bool :=
  is_ascii_digit c || in_range 97%N 102%N c || in_range 65%N 70%N c.
Definition is_ascii_alphanumeric (c : char) : bool :=
  is_ascii_lowercase c || is_ascii_uppercase c || is_ascii_digit c.
Definition is_ascii_punctuation (c : char) : bool :=
  in_range 33%N 47%N c || in_range 58%N 64%N c || in_range 91%N 96%N c || in_range 123%N 126%N c.
(** Rust [char::is_ascii_whitespace]: space, tab, LF, FF, CR. *)
Definition is_ascii_whitespace (c : char) : bool :=
  N.eqb c 32%N || N.eqb c 9%N || N.eqb c 10%N || N.eqb c 12%N || N.eqb c 13%N.
(** winnow [multispace1]: space, tab, CR, LF. *)
Definition is_multispace (c : char) : bool :=
  N.eqb c 32%N || N.eqb c 9%N || N.eqb c 10%N || N.eqb c 13%N.

Definition char_in (l : list char) (c : char) : bool := existsb (N.eqb c) l.

(** [is_id_char], crates/parser/src/parser/token.rs:166-173. *)
Definition is_id_char (c : char) : bool :=
  is_ascii_alphanumeric c
  || (is_ascii_punctuation c
      && negb (char_in (T "',;()[]{}" ++ [c_quote]) c)).

(** ** Basic facts *)

Lemma text_eqb_spec a b : reflect (a = b) (text_eqb a b).
Proof.
  revert b; induction a as [|x a IH]; intros [|y b]; simpl; try (constructor; congruence).
  destruct (N.eqb_spec x y) as [->|Hne]; simpl.
  - destruct (IH b) as [->|Hne]; constructor; congruence.
  - constructor; congruence.
Qed.

Lemma text_eqb_refl a : text_eqb a a = true.
Proof. destruct (text_eqb_spec a a); congruence. Qed.

Lemma text_eqb_eq a b : text_eqb a b = true <-> a = b.
Proof. destruct (text_eqb_spec a b); split; congruence. Qed.

Lemma tlen_app a b : tlen (a ++ b) = tlen a + tlen b.
Proof. induction a; simpl; lia. Qed.

Lemma tlen16_app a b : tlen16 (a ++ b) = tlen16 a + tlen16 b.
Proof. induction a; simpl; lia. Qed.

Lemma utf8_len_pos c : 1 <= utf8_len c.
Proof. unfold utf8_len; repeat destruct (N.ltb _ _); lia. Qed.

Lemma length_le_tlen t : List.length t <= tlen t.
Proof. induction t as [|c t IH]; simpl; pose proof (utf8_len_pos) as H; [lia|]; specialize (H c); lia. Qed.

Lemma tlen_0 t : tlen t = 0 -> t = [].
Proof. destruct t as [|c t]; simpl; auto. pose proof (utf8_len_pos c); lia. Qed.

Lemma strip_prefix_spec p t r : strip_prefix p t = Some r <-> t = p ++ r.
Proof.
  revert t; induction p as [|x p IH]; intros t; simpl.
  - split; congruence.
  - destruct t as [|y t]; [split; congruence|].
    destruct (N.eqb_spec x y) as [->|Hne].
    + rewrite IH. split; congruence.
    + split; [congruence|]. intros H; inversion H; congruence.
Qed.
