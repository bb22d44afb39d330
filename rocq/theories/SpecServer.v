(** What the messages received so far say about the documents. *)

From Coq Require Import String List NArith Bool Arith Lia.
From Verif Require Import Text Kind Green SpecParser Winnow Red LineIndex Cursor Doc Ast Binder Nav InstrMeta Types Check
  SemTok Features Hover Action Completion Salsa SpecSalsa Service Server.
Import ListNotations.

Section Spec.
  Variable json : Type.
  Variable decode_open : json -> option (uri * text).
  Variable decode_change : json -> option (uri * list text).

  (** The text a message gives to a document: that of [didOpen], or the first
      change of [didChange]. *)
  Definition Sets (m : message json) (u : uri) (t : text) : Prop :=
    exists j, (m = Note (T "textDocument/didOpen") j /\ decode_open j = Some (u, t))
           \/ (m = Note (T "textDocument/didChange") j /\ exists r, decode_change j = Some (u, t :: r)).

  (** The text of a document after some messages: that of the last message
      that sets it. *)
  Definition Current (l : list (message json)) (u : uri) (t : text) : Prop :=
    exists a m b, l = a ++ m :: b /\ Sets m u t /\ forall m' t', In m' b -> ~ Sets m' u t'.
End Spec.

(** The response to request [id] that carries an answer. *)
Definition reply (id : N) (a : answer) : output :=
  match a with
  | AError e => OError id e
  | _ => OResult id a
  end.

(** A message sent in response to request [id]. *)
Definition Response (id : N) (o : output) : Prop :=
  match o with
  | OResult id' _ | OError id' _ | OShutdown id' => id' = id
  | OPublish _ _ => False
  end.
