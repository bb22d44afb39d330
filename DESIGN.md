# Formal model of wasm-language-tools in Coq

`properties.jsonl` lists the properties, `MANIFEST.json` the theorems that
prove each of them, `seeded/LOG.jsonl` the wrong programs the theorems were
tried on. This file says what is modelled, how each property is proved, what
is trusted, and what the proofs found out about the code.

Some properties that one would like to hold are false of this code. They are
stated in `properties.jsonl` as what holds, with the false part in brackets,
and the counterexample is a theorem `..._refuted`, which computes the answer of
the model on a concrete document.

## 1. Trusted base

* **Coq 8.16.1's kernel**, including `vm_compute` (used for examples,
  counterexamples and for checking the finite tables, never for the quantified
  claims themselves).
* **Axioms: none.** `Print Assumptions` answers "Closed under the global
  context" for each theorem named in MANIFEST.json; `tools/assumptions.py`
  asks for all of them and wrote `ASSUMPTIONS.txt`. There is no `Admitted`, no
  `Variable`/`Hypothesis` outside a section, no functor, no plugin, no
  unset kernel check.
* **The model is the program.** Every definition cites the file and lines it
  models. Beside reading, the model was run, inside Coq, on the project's own
  tests, and agrees with all expected results:

  | script | compared with | agree |
  |---|---|---|
  | `tools/validate_parser.py` | trees and syntax errors in crates/parser/tests | 41 of 41 |
  | `tools/validate_diagnostics.py` | crates/service/tests/diagnostics | 46 of 46 |
  | `tools/validate_features.py` | the other tests of crates/service/tests | 196 of 196 |
  | `tools/validate_format.py` | crates/formatter/tests | 44 of 44 |
  | `tools/validate_nav.py` | navigation and rename in crates/service/tests | 174 of 174 |

* **Behaviour of the dependencies**, whose sources are not in the sandbox:
  winnow 0.6.18 (combinators), rowan 0.15.16 (trees, `token_at_offset`,
  `covering_element`), line-index 0.1.1, salsa 0.16.1 (validation of memos),
  tiny_pretty 0.2.0 (layout of documents), lsp-types 0.97 (names of methods,
  shapes of parameters). They are modelled from their published behaviour.
* **The tables** `InstrMeta.v` and `InstrNames.v` are generated from the source
  by `tools/gen_instr_meta.py` and `tools/gen_instr_names.py`.

## 2. What is modelled

Text is a list of Unicode scalar values (`list N`). Offsets count UTF-8 bytes
(`nat`, so documents of 4 GiB and more are outside the correspondence). A Rust
`panic` is an explicit value (`Panics`, `ParsePanic`); theorems say when it
occurs. A loop whose termination is not structural takes fuel, with an
explicit out-of-fuel answer that a theorem excludes (C04).

| code | model | notes |
|---|---|---|
| crates/syntax kind.rs, lib.rs | `Kind.v`, `Green.v`, `Red.v`, `Ast.v` | trees with positions; the typed wrappers of ast/ are their `support` calls, written where they are used |
| crates/parser token.rs | `Lexer.v` | all token parsers |
| crates/parser mod.rs, ty.rs, instr.rs, module.rs, error.rs | `Winnow.v`, `Grammar.v` | a combinator language with the semantics of winnow's combinators and of `retry`, `retry_once`, `must`; every grammar function is a term of it. `dbg` tells builds with debug assertions from release builds |
| service helpers.rs, files.rs, features/mod.rs | `LineIndex.v`, `Cursor.v`, `Doc.v` | |
| service binder.rs, idx.rs | `Binder.v` | interned strings are the strings |
| service types_analyzer.rs, data_set | `Types.v`, `InstrMeta.v`, `InstrNames.v` | |
| service checker/, features/diagnostics.rs | `Check.v` | all six checkers |
| features/definition.rs, references.rs, rename.rs | `Nav.v` | |
| features/folding_range.rs, selection_range.rs, document_symbol.rs, call_hierarchy.rs, inlay_hint.rs | `Features.v` | |
| features/semantic_tokens.rs, hover.rs, completion.rs | `SemTok.v`, `Hover.v`, `Completion.v` | |
| features/code_action.rs, refactorings/ | `Action.v` | |
| formatter lib.rs, config.rs, printer/ | `Format.v`, `FmtRequest.v` | the printers of the node kinds are rows of one table of steps, interpreted as the functions do |
| service lib.rs (database, initialize's legend), salsa | `Salsa.v`, `Service.v`, `SemTok.v` | revisions, memos, dependencies, validation, backdating |
| server server.rs | `Server.v` | the loop, its requests and notifications |

Simplifications, beyond those in the comments of the definitions:

* Handlers are functions of the text (`Nav.v` ... `Check.v`). `Service.v` splits
  each into the queries it reads and the rest, by a definition that typechecks
  only if nothing else of the text is used; its program asks those four queries
  first, while the code asks where it needs them. C34 is proved for all
  programs over the queries, so for every order.
* Hash maps: where the code iterates over one, the order is not specified by
  the model's theorem (permutations), or the theorem holds for any order.
* `Format.v`: the rule that decides whether a group fits on the line is a
  parameter (`f_fits`), as is the width of a text (`f_measure`), so the theorems
  hold for every such rule; `rest_fits` is the rule of tiny_pretty that the
  validation uses. A tab size of 0 with tabs divides by zero in tiny_pretty;
  that is not modelled.
* `Server.v`: JSON decoding is any partial function. Formatting requests of the
  server take any formatter in C34 and C35; C32, C33, C43
  and C57 are about the model of the actual one.

Not modelled: main.rs, the transport, serde, the initialize handshake beyond
the legend and the choice of pull diagnostics, the texts in
data_set that hover does not show, editors/, benchmarks. Memory, stack depth and
time are not modelled (one finding on time below).

## 3. Plan per property

Specifications are in `SpecParser.v`, `SpecSyntax.v`, `SpecBinder.v`,
`NavSpec.v`, `SpecTypes.v`, `SpecHeader.v`, `SpecHover.v`, `SpecSemTok.v`,
`SpecAction.v`, `SpecCompletion.v`, `SpecKeyword.v`, `SpecSalsa.v`, `SpecServer.v`,
`SpecFormat.v`, `SpecLayout.v`, `SpecComplete.v`, `SpecRename.v`, `SpecRegroup.v`,
`SpecAlike*.v`, `SpecValid.v`, `SpecInstr.v` and `SpecTypeReport.v`; they use trees and positions, not the functions under proof.

| id | theorems in | method |
|---|---|---|
| C01, C02, C05, C06 | `ThmParser.v` | fuel-free semantics of grammar terms (`Sem.v`); one invariant on text consumed, text in the tree and recorded errors, by induction on derivations (`Lossless.v`, `Bounds.v`) |
| C03 | `ThmParser.v` | analysis of the final repeat of `root` |
| C04 | `ThmParser.v` | ranks of the grammar's nonterminals give enough fuel for every input (`Total.v`); debug builds by simulation (`Debug.v`) |
| C07 | `ThmParser.v` | language of a grammar term (`Lang.v`), lexical predicates per kind (`TokForm.v`) |
| C08, C09 | `ThmTree.v` | shape invariant (`Shape.v`, `Unique.v`), induction on trees |
| C10, C11, C39, C40 | `ThmPos.v` | induction on texts and trees |
| C12-C17 | `ThmNav.v` | the symbol table is characterised by the tree (`BinderFacts.v`, `BinderDefs.v`, `Blocks.v`, `NavFacts.v`) |
| C18 | `ThmRefs.v` | both requests as relations on the tree (`RefFacts.v`) |
| C19, C38, C41 | `ThmCheck.v` | membership in each checker's output (`CheckFacts.v`, `CheckMsgs.v`) |
| C20 | `ThmDup.v` | grouping by name as a permutation |
| C21, C22 | `ThmRename.v` | edits as a set of disjoint tokens |
| C23 | `ThmSemTok.v` | decoding the deltas inverts the encoding |
| C24, C25, C28 | `ThmStructure.v` | membership; tiling (C09) |
| C26 | `ThmSymbols.v` | the symbol forest from parent keys |
| C27 | `ThmCalls.v` | both directions as one relation |
| C29 | `ThmTypeck.v`, `ThmTypeReport.v` | simulation with an operand stack written on the tree (`SpecTypes.v`, `SigFacts.v`); the messages one by one against `SpecTypeReport.v` |
| C30 | `ThmLiteral.v` | membership; decimal printing and parsing |
| C31 | `ThmAction.v` | semantics of applying edits to a text |
| C32, C33 | `ThmFormat.v` | the language of error-free trees with trivia (`FmtLang.v`); a symbolic evaluation of the step tables over the productions (`FmtSteps.v`, proved sound, run by `vm_compute` on the finite table); printing as pieces, whose lexemes are those of the tokens (`FmtPieces.v` ... `FmtParse.v`) |
| C34 | `ThmSalsa.v`, `ThmServer.v` | invariant of the memo store: a memo verified in the current revision has the from-scratch value; induction on histories |
| C35 | `ThmServer.v` | state machine, induction on histories |
| C36 | `ThmCompletion.v`, `ThmKeyword.v` | membership characterisation; keywords compared with the productions of `SpecSyntax.v` (`SpecKeyword.v`) |
| C37 | `ThmHover.v` | function from the tree |
| C42 | `ThmSyntax.v` | productions as regular expressions over children; error-free language inclusion |
| C48 | `ThmComplete.v` | exactness of the token parsers (`LexAccept.v`, `TokAccept.v`); every grammar function gets a description with its language, its first tokens and what it rejects (`Describe.v`, `Descriptions.v`); a decidable check of one-token lookahead, proved sound by induction on texts (`DescribeSound.v`), and evaluated on the descriptions |
| C49 | `ThmReparse.v`, `ThmRange.v` | the printed pieces, read as tokens, are kept apart (`Relex.v`); a tree of the grammar can be respaced (`Respace.v`); then C48. For a range: every node of a well-formed document starts and ends with a token that is printed as it is, or is printed on lines of its own |
| C50 | `ThmAgain.v`, `ThmTwice.v` | the gaps between printed tokens are a blank line exactly where the tree has one (`FmtEmit.v`, `FmtPlain.v`, `FmtFlags.v`); the line breaks of a gap survive printing and reading (`FmtGap.v`); so both trees agree up to other white space (`FmtSame.v`, `FmtTidy.v`), and then their documents are equal (`FmtAlike.v`, `FmtAgain.v`). With comments (`ThmTwice.v`): by C58 both texts are texts of layouts; the second layout is the first with some of its choices between blank and line break already made as they were (`FmtWalk.v`), and making the others again gives the same text (`FmtTwice.v`) |
| C51 | `SpecInstr.v`, `ThmInstr.v` | the families are compared with the generated table by computation, both ways; the statement is about all names |
| C52 | `SpecRename.v`, `ThmRenamed.v` | the edits, sorted as the tokens are, are made by induction on the tree; names start with a dollar sign, so neighbouring tokens stay apart; then C48 |
| C53 | `SpecRegroup.v`, `Regroup.v`, `ThmRegroup.v`, `SpecSlots.v`, `ThmSlots.v`, `ThmSlotHints.v`, `ThmSlotDups.v` | groups of one kind are read by one part of the grammar, which may repeat it except in block types; new groups are put there by induction on the reading; the new tokens are kept apart by spaces; then C48; declarations, signatures and their order are functions of the tree that replacing the groups does not change (`ThmSlots.v`); go to definition by C13, C14 and C15, undefined references as in C19, inlay hints by C28, duplicated names by C20 |
| C54 | `SpecAlike.v`, `Alike.v`, `AlikeNav.v`, `AlikeCheck.v`, `AlikeDoc.v`, `ThmAlike.v`, `SpecAlikeMore.v`, `AlikeMore.v`, `ThmAlikeMore.v`, `SpecAlikeTok.v`, `AlikeTok.v`, `ThmAlikeTok.v`, `SpecAlikeHover.v`, `AlikeHover.v`, `ThmAlikeHover.v`, `SpecAlikeComp.v`, `AlikeComp.v`, `AlikeParen.v`, `ThmAlikeComp.v`, `ThmLines.v`, `SpecAlikeAct.v`, `AlikeAct.v`, `ThmAlikeAct.v` | a relation between the elements of two trees that agree up to white space (same place from the root); every query, the symbol table and each check preserves it, by following the code; the tree from the words by C48 and respacing |
| C55 | `SpecAlike.v`, `SpecRename.v`, `ThmAlpha.v`, `SpecAlikeMore.v`, `AlikeMore.v`, `ThmAlikeMore.v`, `SpecAlikeTok.v`, `AlikeTok.v`, `ThmAlikeTok.v`, `SpecAlikeHover.v`, `AlikeHover.v`, `ThmAlikeHover.v`, `SpecAlikeComp.v`, `AlikeComp.v`, `AlikeParen.v`, `ThmAlikeComp.v`, `ThmLines.v`, `SpecAlikeAct.v`, `AlikeAct.v`, `ThmAlikeAct.v`, `ThmUndo.v`, `ThmRenameBack.v` | the relation of C54 with corresponding names instead of equal ones: every query only compares names, and an injective renaming keeps each comparison; the renamed tree is a document because identifiers stay identifiers and neighbouring tokens stay apart; the rename request by C52 |
| C56 | `SpecValid.v`, `ThmValid.v` | WebAssembly's typing of instructions and blocks without jumps stated over the tree, parenthesised instructions unfolded; from C29 and C51 by relating the checker's stack, where some types are unknown, to the stack of types |
| C57 | `ThmSession.v` | sessions of the server loop of C35 with the actual formatter; from C35, C32, C50, C53, C54 and C55; that edits have one result by induction over them |
| C58 | `SpecLayout.v`, `ThmLayout.v`, `ThmWidth.v` | the layout is a function of the tree (`lay_document`), with the gap before a child from a table or, if there are comments or an empty line there, from these, and text is made of it line by line; the documents of the formatter are flattened to the same pieces (`FmtLayout.v`): each step of a table prints the gap and the indentation of the layout, by a check over the segments of every production that is computed once, and by induction over the tree |
| C59 | `ThmAccept.v`, `ThmOthers.v` | the tree with one identifier replaced is alike to the old one (`Alike.v`, any names), its other tokens are unchanged; from C36, C13, C15, C16 and C19 for the two documents; for other references (`C59_others`) the scopes and the names written there are unchanged, so the same theorems give the same places and, with C19, the same reports (`C59_others_reported`) |
| C60 | `SpecInverse.v`, `ThmInverse.v` | the tree after the edit is known from C53, with the new groups at a known place in it; they are the first run of groups in the range, as no group is empty; then the completeness of C31 in the new document |
| C43 | `ThmIgnore.v` | position of a sub-document in the printed document |
| C44, C45 | `ThmGoto.v` | as C12-C18 |
| C46, C47 | `ThmPrepare.v` | as C27, C22; nodes are told apart by their ranges |

## 4. Findings

Each is a `_refuted` theorem or a clause of a characterising theorem.

Parser
* A closing quote missing at the end of input, or text after a stray `)`, is
  dropped from the tree: `C03_lossless_refuted`, `C01_prefix_refuted`.
* A stray `)` at top level gives a silent ERROR token (C06); a syntax error may
  have start > end (`( )`, C05); debug builds panic on some inputs (C04).
* Errors recorded on a path that is given up stay recorded. Nested unterminated
  block comments take exponential time (not a theorem).
* `(block (result i32) (result i64) ...)` is rejected (C42).

Positions
* Columns count bytes, not UTF-16 units (C11); a column past the end of its line
  leads to a later line (C10); positions beyond the last line and ranges that
  end before they start panic (C39).

Names
* Functions, globals, memories, tables and types share one counter, so numeric
  references resolve wrongly in modules that mix them (C14, C36).
* Parameters of a referenced type are not counted for `local.get n` (C15).
* The chain of labels breaks at folded instructions and branches of `if` (C17).
* Duplicate parameter names resolve to all of them; references of a label list
  all branches inside its block (C18).
* `local.get` outside functions and `br` outside blocks are not reported (C19).
* Names of different kinds clash, labels of sibling blocks are reported, tables
  are not checked (C20).
* Renaming edits every element of that name in the region; for labels also
  parameters; `end $a` is not edited; renaming a module edits nothing (C21, C22).

Types
* Declared results of functions are not checked; calls to imported functions and
  functions with only `(type ...)` are misjudged (C29).
* `local.set` of a wrong type is accepted, and operands that a parenthesised
  instruction takes from the stack are reported (C56).
* Blocks are not looked into: unparenthesised code in a block is never type
  checked, values that a block gives and code after `unreachable` are reported as
  missing operands (C56).
* A missing operand is not reported; `call -1` is accepted;
  `(i32.load (i32.const 0))` and `v128.const i32x4 ...` get false errors;
  `v128.load32_zero` is not checked (C30). `select` has the entry of its typed form
  (one immediate, opcode 0x1C) in the table.

Features
* Semantic tokens: line feeds in strings are not counted, columns underflow,
  range answers are relative to the first token (C23).
* Selection ranges: positions without a token are dropped, so that answers
  misalign (C25). Empty modules have no symbol (C26).
* References outside function bodies are not calls; calls are not grouped (C27).
* Splitting and joining groups drops comments; `align align =8` is not fixed (C31).
  Splitting the result of a block gives a text the parser rejects (C53).
* Hover on an undefined name shows an empty text (C37).
* Completion offers nothing after `(` in a block, and no names in
  `(data (memory $`; the number offered for an unnamed definition is not its
  index (C36).
* Completion offers `i8x16.mul`, which does not exist, and lacks 185
  instructions, among them `memory.copy` and the saturating truncations (C51).

Formatter
* `shared` and a second inline import are dropped, an inline import is moved
  before exports, a label after `end` is moved to the start (C32).
* Comments between parameters and results, and before the first instruction of
  a branch, are dropped (C33).
* Range formatting ignores the directive (C43).
* A blank line between parameters and results is removed with all space around
  it, and the next formatting puts a space there (C49); so is a comment there
  (C50).
* Behind a comment, an offset or element without keyword is put on a new line
  each time the document is formatted, so lines are added (C50).
* After an empty line, an offset or element without keyword is put after one more
  line that has only indentation (C58).

Server
* Unknown methods and parameters that do not decode get no response; a request
  for a document that was never opened ends the process; `didClose` keeps the
  text; only the first change of a `didChange` counts (C34, C35).

## 5. Wrong programs

`seeded/LOG.jsonl` has one line per edit of the model: the definition, the
edit, the claim it breaks and the theorems that no longer hold. The harness
rebuilds a copy of the model with the edit, replaces each proof that fails by
`Admitted`, and asks `Print Assumptions` which property theorems depend on one.
An edit that no property theorem notices is a gap; the log says how it was
closed.
