(** The server loop (crates/server/src/server.rs).

    Not modelled: the transport (lsp-server), JSON and its decoding (serde),
    and the initialize handshake, which only sets [sv_pull] and the legend.
    Messages are taken as already split into requests, notifications and
    responses; [decode] and the like stand for serde: any partial function. *)

From Coq Require Import String List NArith Bool Arith Lia.
From Verif Require Import Text Kind Green SpecParser Winnow Red LineIndex Cursor Doc Ast Binder Nav InstrMeta Types Check
  SemTok Features Hover Action Completion Salsa Service.
Import ListNotations.

(** [R::METHOD] of lsp-types 0.97. *)
Definition method_name (m : method) : text :=
  T match m with
    | MPrepareCalls => "textDocument/prepareCallHierarchy"
    | MIncoming => "callHierarchy/incomingCalls"
    | MOutgoing => "callHierarchy/outgoingCalls"
    | MCodeAction => "textDocument/codeAction"
    | MCompletion => "textDocument/completion"
    | MDiagnostic => "textDocument/diagnostic"
    | MFolding => "textDocument/foldingRange"
    | MFormatting => "textDocument/formatting"
    | MRangeFormatting => "textDocument/rangeFormatting"
    | MDefinition => "textDocument/definition"
    | MTypeDefinition => "textDocument/typeDefinition"
    | MDeclaration => "textDocument/declaration"
    | MHover => "textDocument/hover"
    | MInlayHint => "textDocument/inlayHint"
    | MReferences => "textDocument/references"
    | MPrepareRename => "textDocument/prepareRename"
    | MRename => "textDocument/rename"
    | MSelection => "textDocument/selectionRange"
    | MTokensFull => "textDocument/semanticTokens/full"
    | MTokensRange => "textDocument/semanticTokens/range"
    | MSymbols => "textDocument/documentSymbol"
    end%string.

(** The order in which the loop tries them, server.rs:52-349. *)
Definition tried : list method :=
  [MPrepareCalls; MIncoming; MOutgoing; MCodeAction; MCompletion; MDiagnostic; MFolding; MFormatting; MRangeFormatting;
   MDefinition; MTypeDefinition; MDeclaration; MHover; MInlayHint; MReferences; MPrepareRename; MRename; MSelection;
   MTokensFull; MTokensRange; MSymbols].

(** [Message] of lsp-server; a request identifier is only copied. *)
Inductive message (json : Type) : Type :=
| Req (id : N) (name : text) (j : json)
| Note (name : text) (j : json)
| Resp (id : N).
Arguments Req {json}.
Arguments Note {json}.
Arguments Resp {json}.

(** What the server sends: a response with a result, one with an error, the
    response to [shutdown], and [textDocument/publishDiagnostics]. *)
Inductive output : Type :=
| OResult (id : N) (a : answer)
| OError (id : N) (m : text)
| OShutdown (id : N)
| OPublish (u : uri) (l : list diag).

(** After a message: go on, stop, or the process is gone after a panic. *)
Inductive outcome : Type :=
| Going (o : list output) (d : db)
| Ended (o : list output)
| Crashed.

Section Server.
  Variable json : Type.
  Variable decode : method -> json -> option params.
  Variable decode_open : json -> option (uri * text).
  Variable decode_change : json -> option (uri * list text).
  Variable decode_close : json -> option uri.
  Variable legend : list string.
  Variable formatter range_formatter : green -> line_index -> params -> ans (list (range * text)).
  (** [support_pull_diagnostics], server.rs:24 and 32-37. *)
  Variable pull : bool.

  Definition serve_request (id : N) (m : method) (p : params) (d : db) : outcome :=
    match run (refresh depth) (handler legend formatter range_formatter m p) d with
    | Done (a, _, _) d' => Going [match a with AError e => OError id e | _ => OResult id a end] d'
    | _ => Crashed
    end.
  (** One [cast_req] after the other, server.rs:52-349: a request that does
      not decode is dropped, and so is one that no method takes. *)
  Fixpoint try_requests (ms : list method) (id : N) (name : text) (j : json) (d : db) : outcome :=
    match ms with
    | [] => Going [] d
    | m :: r =>
        if text_eqb name (method_name m) then
          match decode m j with
          | Some p => serve_request id m p d
          | None => Going [] d
          end
        else try_requests r id name j d
    end.

  (** [publish_diagnostics], server.rs:429-435. *)
  Definition publish (u : uri) (d : db) : outcome :=
    match run (refresh depth) (diagnostics_prog u) d with
    | Done (l, _, _) d' => Going [OPublish u l] d'
    | _ => Crashed
    end.
  (** [handle_did_open_text_document], server.rs:385-396, and the body of
      [handle_did_change_text_document]. *)
  Definition set_text (u : uri) (t : text) (d : db) : outcome :=
    let d' := commit u t d in
    if pull then Going [] d' else publish u d'.

  Definition did_open : text := T "textDocument/didOpen".
  Definition did_change : text := T "textDocument/didChange".
  Definition did_close : text := T "textDocument/didClose".
  Definition shutdown : text := T "shutdown".

  (** The loop body, server.rs:44-383.  [handle_shutdown] answers and then
      waits for [exit]; whatever comes, the loop ends (server.rs:48-50). *)
  Definition step (msg : message json) (d : db) : outcome :=
    match msg with
    | Req id name j =>
        if text_eqb name shutdown then Ended [OShutdown id]
        else try_requests tried id name j d
    | Note name j =>
        if text_eqb name did_open then
          match decode_open j with
          | Some (u, t) => set_text u t d
          | None => Going [] d
          end
        else if text_eqb name did_change then
          match decode_change j with
          | Some (u, c :: _) => set_text u c d                 (* server.rs:403-409 *)
          | Some (_, []) => Going [] d
          | None => Going [] d
          end
        else if text_eqb name did_close then
          match decode_close j with
          | Some u => Going [OPublish u []] d                  (* server.rs:413-427 *)
          | None => Going [] d
          end
        else Going [] d
    | Resp _ => Going [] d
    end.

  (** The messages sent while each message is handled.  The list stops with
      the server. *)
  Fixpoint loop (d : db) (l : list (message json)) : list (list output) :=
    match l with
    | [] => []
    | m :: r =>
        match step m d with
        | Going o d' => o :: loop d' r
        | Ended o => [o]
        | Crashed => []
        end
    end.
End Server.
