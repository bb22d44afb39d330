#!/usr/bin/env python3
# Generates /verif/properties.jsonl.  Edit here, then run.
import json
P=[]
def p(id,title,statement,quantifier,why,anchors):
    P.append(dict(id=id,title=title,statement=statement,quantifier=quantifier,why_tests_cant=why,anchors=anchors))
PA="crates/parser/src/parser/"
SE="crates/service/src/"
FE=SE+"features/"
p("C01","Parse tree text is a subsequence of the source",
  "For every source text, the concatenated text of all tokens of the tree returned by Parser::parse is the source with some text left out: no character is invented, changed, duplicated or reordered. What is left out is an end of the source (see C03) and unfinished \\u escapes in malformed strings directly before an opening parenthesis. (The stronger claim that the tree text is a prefix of the source is false: a witness is given.)",
  "every source string (any Unicode text, any length, any nesting)",
  "unit tests check a finite set of fixtures; the parser backtracks and recovers, so the claim must hold on every path",
  [PA+"mod.rs: Parser::parse_to_green, root, retry, retry_once, must",PA+"token.rs",PA+"ty.rs",PA+"instr.rs",PA+"module.rs"])
p("C02","No reported syntax error implies a lossless tree",
  "If Parser::errors() is empty after parsing, the text of the tree equals the whole source.",
  "every source string on which no syntax error is reported",
  "depends on every recovery path recording an error whenever text is dropped",
  [PA+"mod.rs: Parser::parse_to_green, Parser::errors"])
p("C03","Exactly when text is dropped from the tree",
  "The tree covers the whole source, except for the malformed string pieces of C01 and a suffix; the dropped suffix is empty or begins with a form feed character or with a double quote that starts neither a complete string nor one cut off by a line ending. A source without form feeds and double quotes is covered completely, whatever else is wrong with it. (Full losslessness for every source is false: a witness is given.)",
  "every source string",
  "the failing inputs are rare bytes no fixture contains",
  [PA+"mod.rs: root",PA+"token.rs: error_token, string_impl, ws"])
p("C04","Parsing is total",
  "Parser::parse terminates on every source and always returns a tree with root kind ROOT: the `expect` in parse_to_green cannot fire, and in a release build no combinator aborts. In a build with debug assertions the claim is false: a witness is given, and a source in which `(;` occurs at most once never triggers it, and a debug build that does not panic returns what the release build returns.",
  "every source string, both build profiles",
  "termination and absence of panics over all inputs",
  [PA+"mod.rs: parse_to_green, root",PA+"token.rs: block_comment_impl"])
p("C05","Syntax error positions stay inside the document",
  "Every reported SyntaxError has start and end at most the byte length of the source, and both lie on character boundaries.",
  "every source string, every reported error",
  "error positions are accumulated through backtracking",
  ["crates/parser/src/error.rs",PA+"mod.rs"])
p("C06","ERROR tokens are silent only at the top level after a stray closing parenthesis",
  "If the tree contains an ERROR token and no syntax error is reported, then the first ERROR token is a closing parenthesis that is a direct child of the root. Inside modules an ERROR token is always accompanied by a reported error. (The claim that every ERROR token is reported is false: a witness is given.)",
  "every source string",
  "must hold over every interleaving of recovery and backtracking",
  [PA+"mod.rs: retry, retry_once",PA+"token.rs: r_paren, error_token, error_term"])
p("C07","Tokens have the lexical form of their kind",
  "Every token of every parse tree has text of the form its kind promises: parens, whitespace, `;;` comments without line break, `(; ;)` comments, `$name`, quoted strings, unsigned integers, type keywords, alphabetic keywords. No token is empty.",
  "every source string, every token of its tree",
  "typed accessors contain unreachable!() branches that rely on it for every input",
  [PA+"token.rs",PA+"ty.rs",SE+"types_analyzer.rs: From<AstValType>"])
p("C08","Nodes are uniquely identified by kind and range",
  "Two different nodes of a parse tree never have both the same kind and the same text range, so a stored node pointer (symbol key) resolves to exactly the node it was created from.",
  "every source string, every pair of nodes",
  "zero-width and single-child nodes could collide on inputs no test has",
  [SE+"binder.rs: SymbolItemKey",PA])
p("C09","Tree children tile their parent",
  "In every tree the range of a node is the disjoint, ordered, gap-free union of its children's ranges; the ranges of root is [0, length of tree text].",
  "every source string, every node",
  "all position-based features rely on it",
  ["crates/syntax/src/lib.rs"])
p("C10","LSP position and offset conversions are inverse",
  "For every text and every offset inside it on a line, converting offset to (line, column) and back yields the same offset; conversion is strictly monotone; converting a position that exists to an offset and back yields the same position.",
  "every text, every offset, every position",
  "infinitely many texts and offsets",
  [SE+"helpers.rs: rowan_pos_to_lsp_pos, lsp_pos_to_rowan_pos"])
p("C11","What the reported columns count",
  "The character field of every reported position counts the UTF-8 bytes since the start of the line, so it is the UTF-16 column the protocol requires on ASCII lines. (The claim that it is the UTF-16 column on every line is false: a witness is given.)",
  "every text, every offset",
  "fixtures are ASCII only",
  [SE+"helpers.rs",SE+"lib.rs: initialize"])
p("C12","Definitions found for a reference lie in the reference's own module (or function) and have the right sort",
  "Go to definition never returns a symbol from another module, nor a symbol of another sort (function, type, global, memory, table, parameter/local, block label) than the one the reference syntactically asks for.",
  "every document, every reference",
  "quantifies over every document and reference",
  [SE+"binder.rs: SymbolTable::find_defs",FE+"definition.rs"])
p("C13","A named reference resolves to exactly the definitions with that name",
  "A reference written as `$x` resolves to a symbol iff that symbol is a definition of the right sort in the same region whose identifier is `$x`.",
  "every document, every named reference",
  "quantifies over every document and reference",
  [SE+"idx.rs: Idx::is_defined_by",SE+"binder.rs"])
p("C14","Which definition a numeric module-level reference resolves to",
  "A reference written as a number n resolves to the n-th of all definitions of its module, whatever their index space, and only if that one has the right sort. In a module whose definitions all belong to one index space this is the n-th definition of that index space, imports included. (The unrestricted claim, that n counts within the reference's own index space, is false: a witness is given.)",
  "every document, every numeric reference",
  "fixtures put the referenced definition first",
  [SE+"binder.rs: create_symbol_table module_field_id"])
p("C15","local.get n resolves to the n-th parameter or local of the enclosing function",
  "For a function, the parameters and locals written in it are numbered consecutively from 0 in source order (unnamed groups count one per type), and local.get/set/tee with number n resolve to the one with number n; with a name, to the first with that name. (The claim that parameters declared only by a referenced type are counted too is false: a witness is given.)",
  "every document, every function, every n",
  "any number of parameters and locals, named and unnamed",
  [SE+"binder.rs: create_symbol_table, find_param_or_local_def"])
p("C16","Branch labels resolve to an enclosing block",
  "A br/br_if/br_table label only ever resolves to a block, loop or if that syntactically encloses the instruction; a numeric label n, when it resolves, resolves to the (n+1)-th enclosing label counted by the chain of directly nested blocks; a named label resolves to the innermost such block with that name.",
  "every document, every branch instruction",
  "any nesting depth",
  [SE+"binder.rs: blocks, find_block_def"])
p("C17","Every label of directly nested blocks can be resolved",
  "If every block enclosing a branch is the direct parent of the next inner one, branch label n resolves to the n-th enclosing block whenever there is one, and a named label to the innermost enclosing block with that name. (The unrestricted claim is false when an if branch or a folded instruction lies between: witnesses are given.)",
  "every document, every branch instruction",
  "any nesting depth",
  [SE+"binder.rs: create_symbol_table br arm"])
p("C18","Definition and references are inverse",
  "For module-level names: with declarations excluded or included, a reference r is listed by find references of a definition d iff go to definition of r includes d. For parameters and locals the same holds when the names of the function are distinct. For block labels every reference that resolves to the block is listed. (The unrestricted claims for locals and for labels are false: witnesses are given.)",
  "every document, every pair of symbols",
  "quantifies over all pairs",
  [FE+"definition.rs",FE+"references.rs"])
p("C19","Undefined diagnostics are exact",
  "The \"cannot find\" diagnostics are exactly those of the references that mean nothing in their scope, at the reference and naming it as written; for a reference in its scope this is so iff go to definition finds nothing. (A local reference outside any function and a branch outside any block get no diagnostic although go to definition finds nothing: a witness is given.)",
  "every document, every reference symbol",
  "soundness and completeness over all documents",
  [SE+"checker/undef.rs"])
p("C20","Duplicate name diagnostics are exact",
  "Every named function, type, global, memory, parameter, local or block label is reported as duplicated when another of them declares the same name in the same region, and related information lists exactly the others; a label is also reported when at least two enclosing or contained blocks carry it; nothing else is reported. (That this agrees with WebAssembly's name spaces is false: kinds share names, sibling labels are reported, tables and a single nested duplicate are not; witnesses are given.)",
  "every document",
  "any number of definitions",
  [SE+"checker/dup_names.rs"])
p("C21","What rename changes",
  "Renaming a named definition, parameter, local or reference edits the identifier token of the symbol, of everything that resolves to it, and of every other named member of the same name space (module, or function for locals); renaming a label edits it, every branch under it and, for a block directly in a function, the function's parameters and locals. It is exact when the module uses no other name. (The claim that nothing else is edited is false: witnesses are given.)",
  "every document, every position, every new name",
  "fixtures contain a single name",
  [FE+"rename.rs: rename_impl"])
p("C22","Rename edits are valid edits",
  "Every rename edit replaces exactly one identifier token of the document by the new name, edits never overlap, the edit set includes the token under the cursor when that is the first identifier of a construct other than a module, an invalid new name is always refused without edits, and rename panics only where looking up the cursor does. (Inclusion fails for module names and for the identifier after `end`: witnesses are given.)",
  "every document, position and new name",
  "infinitely many documents",
  [FE+"rename.rs"])
p("C23","Semantic tokens decode to the tokens of the document",
  "The answer to semanticTokens/full always exists. If the tree holds the whole document and line feeds occur only in white space and, when the client knows comments, in block comments, decoding the answer by the rules of the protocol yields, in order, exactly the tokens whose type the client knows, each at its line and byte column, with its byte length and the legend index of its type (a name is a function, parameter or variable by what it denotes); nothing is subtracted below zero. For a range it yields exactly those that overlap the range, except that columns on the line of the first token of the range are relative to that token. The legend is exactly the types both sides know. (The unrestricted claims are false: line feeds inside strings, or in comments when the client does not know comments, displace what follows and underflow; range answers are displaced; witnesses are given.)",
  "every document, every range, every list of token types of the client",
  "relative encodings accumulate errors",
  [FE+"semantic_tokens.rs: build_tokens, token_type, semantic_tokens_full, semantic_tokens_range","crates/service/src/lib.rs: initialize"])
p("C24","Folding ranges are exactly the multi-line constructs",
  "The folding ranges of a document are exactly the ranges of those nodes that have a keyword or an opening parenthesis of their own and whose first and last line differ, each given once; any two are nested or apart. (Block comments are never folded.)",
  "every document",
  "quantifies over all documents",
  [FE+"folding_range.rs"])
p("C25","Selection ranges are nested",
  "The answer lists, in the order of the positions asked for, the selection at each position that is on a token: the ranges of the token and of all nodes around it; each is contained in the next, the last starts at the start of the document and without syntax errors is the whole document, and all contain the position. (That there is one selection per position, as the protocol asks, is false: a witness is given.)",
  "every document and list of positions",
  "quantifies over all documents",
  [FE+"selection_range.rs"])
p("C26","Document symbols are exact and respect containment",
  "Up to the order of the modules, the document symbols are exactly one entry per module that defines anything, with exactly one child per definition in source order (a function or a variable, named by its identifier or its number, with its range and the range of its identifier), and under it one child per local, numbered after the parameters; so every symbol's selection range is contained in its range and every child symbol's range is contained in its parent's. (Modules without definitions are not listed.)",
  "every document",
  "quantifies over all documents",
  [FE+"document_symbol.rs"])
p("C27","Call hierarchy incoming and outgoing calls agree",
  "For every function of the document, the outgoing calls are exactly one entry per call instruction (call, return_call, ref.func) in its body and function the operand refers to, and the incoming calls are exactly one entry per function with a body and call instruction in it that refers to the asked function, each with the item of the other function (its name, header and ranges) and the range of the call instruction; hence f lists g among its outgoing calls iff g lists f among its incoming calls, with the same call sites. (References to functions from outside function bodies, such as start, export or element fields, are not listed.)",
  "every document, every pair of functions",
  "quantifies over all pairs",
  [FE+"call_hierarchy.rs"])
p("C28","Inlay hints are exact and stay inside the requested range",
  "For a range request the hints are exactly: the declared type of the local or global after every index inside the range that names one, and the name of a function after its last token if that lies inside the range; so every hint is for a place inside the range, and there is an answer for every range whose ends exist and are in order.",
  "every document and range",
  "quantifies over all documents and ranges",
  [FE+"inlay_hint.rs"])
p("C29","Type diagnostics accept exactly the code whose operands fit",
  "No type diagnostic is reported iff every parenthesised instruction fits its operands (the operands after its immediates are instructions and together give what it takes) and every function body or global value with an unparenthesised instruction runs on an abstract operand stack from empty without a missing or wrong operand; what instructions take and give is read off the instruction table, the called function's declaration, and the local or global named. Otherwise there is one diagnostic message for each operand that is no instruction, each wrong number of operands and each wrong type, on the element concerned, with the numbers or types expected and found. (What is left on the stack is not compared with the declared results, and calls of functions whose parameters are not written at their own definition are misjudged: witnesses are given.)",
  "every document, bodies of any length and nesting",
  "quantifies over all instruction sequences of any length and nesting",
  [SE+"checker/typeck.rs",SE+"types_analyzer.rs",SE+"data_set/instr_meta.rs"])
p("C30","Literal operand diagnostics are exact",
  "An operand gets a form diagnostic (expected index, integer, float or memory argument) iff its first token does not fit the form that the instruction takes at that position; the forms follow from the instruction's name for every instruction in the table. (A missing operand and a negative index are not reported, and a left-out memory argument is: witnesses are given.)",
  "every document",
  "quantifies over all documents",
  [SE+"checker/literal_operands.rs"])
p("C31","Code actions change grouping and white space only",
  "Every code action in the answer is one of: splitting a parameter, result or local group with two or more types into one group per type, in order; joining the first run of unnamed parameter groups inside the requested range into one group; removing the white space inside a misspelt memory argument; and it belongs to a node that contains the range. Every splitting or joining that applies to a node strictly around the range is in the answer. Applying the edits replaces one stretch of tokens by another with the same types, names, numbers and strings in the same order; a rewrite writes only those, parentheses, the keyword and single spaces, and the fix removes only white space. The request fails only if the range ends before it starts. (That comments survive, and that every misspelt memory argument is offered the fix, is false: witnesses are given.)",
  "every document, requested range and set of wanted kinds",
  "quantifies over all documents",
  [SE+"features/code_action.rs code_action",SE+"refactorings/func_header_split.rs act",SE+"refactorings/params_join.rs act",SE+"refactorings/fix_invalid_mem_arg.rs act"])
p("C32","Formatting preserves the program",
  "Formatting a document, with any settings and any rule for breaking lines, gives a text whose lexemes other than comments are the tokens of the document in the same order: nothing is added, dropped, altered or joined. The formatting edit replaces the whole document. A range formatting edit replaces the innermost node around the range, by a text with that node's tokens. This holds for documents in ordinary form with closed strings and without the directive that switches formatting off. (Otherwise it is false: `shared` of a memory and the second inline import of a function are dropped, an inline import after an export and a label after `end` are moved, an unclosed string swallows what follows: witnesses are given.)",
  "every document without syntax errors, every setting, every requested range",
  "quantifies over all documents, nestings, settings and layouts",
  ["crates/formatter/src/lib.rs: format, format_range","crates/formatter/src/printer/","crates/service/src/features/formatting.rs"])
p("C33","Formatting preserves comments",
  "Every comment of the document is in the formatted text, between the same tokens and in the same order, except comments between the parameters and the results of a type use without `(type ...)` and comments before the first instruction of a branch without parentheses. A comment is printed as it is; if comments are to be formatted, it may get a blank after its opening and before its closing delimiter. Formatting never panics on a comment. (That every comment is kept is false: witnesses for both exceptions are given.)",
  "every document without syntax errors, every setting",
  "quantifies over all documents and every place of a comment",
  ["crates/formatter/src/printer/mod.rs: format_trivias_after_token, format_trivias_after_node"])
p("C34","Answers depend only on the current text",
  "Through any history of setting documents' texts and asking, each answer is the one computed from scratch from the texts set last: cached results of earlier versions, other documents and the order of requests never show, although the cache takes two symbol tables for equal when their symbols have the same places and sorts. So two histories that leave the same texts get the same answer to the next request. A request for a document whose text was never set panics and nothing is answered afterwards.",
  "every history of commits and requests, every request that asks for functions' headers and signatures through the document's own symbols",
  "unbounded histories",
  [SE+"lib.rs: commit",SE+"files.rs",SE+"binder.rs: SymbolTablesCtx, PartialEq for SymbolItem",SE+"types_analyzer.rs: TypesAnalyzerCtx"])
p("C35","Each supported request gets exactly one response with its id",
  "Each request of a supported method whose parameters decode, for a document with a text, is answered while it is handled by exactly one message: the feature's answer on the text that the last didOpen or didChange gave the document, under the request's id. Every response answers the request being handled; notifications get none. Diagnostics of each new text are published, unless the client pulls them; closing publishes an empty list. The server stops exactly at shutdown, which it answers, and at a request whose handler panics: for a document without text, or where the feature panics. (That every request is answered is false: unknown methods and parameters that do not decode get no response, and a request for an unopened document ends the process; a witness is given.)",
  "every message history, every decoding of parameters, both modes of diagnostics, every formatter",
  "unbounded histories",
  ["crates/server/src/server.rs: Server::run, server_loop"])
p("C36","Completion offers only names in scope",
  "With the cursor in a reference or where one is to come, completion offers exactly the names in scope of the sort the position asks for, in order: the definitions of that sort in the enclosing module, the parameters and locals of the enclosing function with their types, or the blocks around the cursor from the inside out; functions come with their header; after a dollar sign only named ones, inserted without it. At any other position every item is an instruction, type or keyword of the language or a name in scope, and every keyword belongs to one of the three innermost forms. After an opening parenthesis in a module, a module field, an import description, a function type or a list of elements, the keywords offered are exactly those of the forms that the grammar allows directly there (in a function before its first instruction, in a global before its type, in an element segment according to the parts it has), and keywords are offered only behind a parenthesis, with named exceptions. Where functions, globals, segments and offsets have instructions, every instruction is offered, and nowhere else. In parameters, results, locals and global types the value types are offered. Nothing panics except for positions past the end. (Refuted with witnesses: that every reference position is completed; that instructions are offered in blocks; that the number offered for an unnamed definition is its index.)",
  "every document and position",
  "quantifies over all documents",
  [FE+"completion.rs"])
p("C37","Hover shows the declaration and its documentation",
  "With the cursor on a token, hover answers exactly: on a reference, the declarations it denotes; on a declaration, itself; on a value type or instruction, its description. A function is shown as its header (the declared name, parameters and results in order) followed by the lines of the nearest group of ;;; comments above it, in order. The range is the token's. On anything else nothing is shown, and nothing panics. (The claim that a reference to something undefined shows nothing is false: it shows an empty text, a witness is given.)",
  "every document, every cursor position on a token",
  "quantifies over all documents, declarations and positions",
  [SE+"types_analyzer.rs: render_func_header, extract_sig",FE+"hover.rs"])
p("C38","Diagnostics of a document are within its bounds",
  "Checking a document always answers, and every range it reports, of diagnostics and of related information, lies inside the document, with the start not after the end except for syntax errors.",
  "every document",
  "quantifies over all documents",
  [SE+"checker/",FE+"diagnostics.rs"])
p("C39","Which client positions and ranges panic",
  "Looking up the token at a client-supplied position, or converting a client-supplied range, panics exactly for the characterised set: positions beyond the end of the last line, positions in text the parser dropped, and ranges whose end precedes their start. (The claim that nothing panics is false: witnesses are given.)",
  "every document, every position and range a client may send",
  "quantifies over all documents and all positions, including ones outside the document",
  [FE+"mod.rs: find_meaningful_token",SE+"helpers.rs: LineIndexExt"])
p("C40","The token under the cursor",
  "The token a request works on touches the cursor offset, and when two tokens meet at the cursor the meaningful one is preferred: trivia and punctuation are only returned when the neighbour is no better.",
  "every document and position",
  "quantifies over all documents and positions",
  [FE+"mod.rs: find_meaningful_token"])
p("C41","Only the first module is accepted",
  "Every module of a document but the first is reported, at the module, and nothing else is reported so.",
  "every document",
  "any number of modules",
  [SE+"checker/multi_modules.rs"])
p("C42","A document reported free of errors is written in the grammar",
  "If no syntax error is reported for a document, every node of its tree follows the production of its kind in the grammar of the text format: the same keywords, tokens and sub-nodes in the same order, white space and comments left out. (The converse, that every document written in the grammar is accepted, is false: a block type with two results is rejected, a witness is given; C48 has a class of documents that are.)",
  "every document, every node of its tree",
  "quantifies over all documents and all nestings",
  ["crates/parser/src/parser/module.rs","crates/parser/src/parser/instr.rs","crates/parser/src/parser/ty.rs"])
p("C43","The directive comment switches formatting off",
  "If a line comment that starts with the configured directive stands before a module of the document, or before a field of a formatted module, with one white space in between, the formatted text contains the text of that module or field as it was, with the configured line end for each of its line ends. (Range formatting does not respect the directive: a witness is given.)",
  "every tree, every setting with a directive that does not start with white space, every rule for breaking lines",
  "quantifies over all documents, settings and layouts",
  ["crates/formatter/src/printer/mod.rs: should_ignore, reflow","crates/formatter/src/printer/module.rs: impl DocGen for Module"])
p("C44","Go to declaration agrees with go to definition",
  "Go to declaration answers exactly when the cursor is on a token of an operand of an instruction and go to definition answers with a list of definitions of the module; the two answers are then the same. Both panic exactly when the position is not one of the document.",
  "every document and position",
  "quantifies over all documents and positions",
  [FE+"definition.rs: goto_declaration, goto_definition"])
p("C45","Go to type definition",
  "With the cursor on an operand of an instruction that refers to definitions of the module, go to type definition shows, for each definition the reference resolves to, in order, the type definitions that its type index resolves to, and nothing for a definition without a type index. There is no other answer.",
  "every document and position",
  "quantifies over all documents and positions",
  [FE+"definition.rs: goto_type_definition"])
p("C46","Where a call hierarchy can start",
  "Preparing a call hierarchy answers exactly with the cursor on a token of a function, with that function's item, or on a reference to functions, with the items of the functions it resolves to, in order. An item has the function's name or number, its header and its range, and the requests for incoming and outgoing calls answer for it. The request panics exactly when the position is not one of the document.",
  "every document and position",
  "quantifies over all documents and positions",
  [FE+"call_hierarchy.rs: prepare_call_hierarchy"])
p("C47","Prepare rename agrees with rename",
  "Prepare rename answers exactly with the cursor on an identifier, with the range of the identifier. Renaming to a valid name is refused exactly where prepare rename has no answer, and panics exactly where it panics.",
  "every document, position and new name",
  "quantifies over all documents and positions",
  [FE+"rename.rs: prepare_rename, rename"])
p("C48","Every well-formed document is accepted",
  "Every text written in the grammar of the text format is parsed without errors, and the tree is the one it was written from: modules with all their fields, instructions folded and unfolded, any white space and nested comments in front of any token, provided neighbouring tokens do not run together. In particular no such text can be read in two ways. The grammar leaves out what the parser rejects or reads differently: several results as a block type, an element segment without offset that starts with a name, and immediate operands after folded ones.",
  "every tree of the grammar, with any spacing and any names, numbers and strings",
  "quantifies over all documents, nestings and spacings",
  ["crates/parser/src/parser/module.rs","crates/parser/src/parser/instr.rs","crates/parser/src/parser/ty.rs","crates/parser/src/parser/token.rs"])
p("C49","Formatting gives a document that parses to the same program",
  "Formatting a well-formed document (C48) in ordinary form without the ignore directive gives a text that is again a well-formed document: it is parsed without errors, its tree is the same up to white space and comments, its tokens are the tokens of the document, its comments those C33 says are kept, and it can be formatted again. Making the edit of range formatting, for any range, also gives a well-formed document with the same tree up to white space and comments. (That formatting twice gives the same text as formatting once is false: a blank line between parameters and results is removed with all space around it; a witness is given.)",
  "every well-formed document in ordinary form, every range, setting and rule for breaking lines",
  "quantifies over all documents, settings and layouts",
  ["crates/formatter/src/lib.rs: format, format_range","crates/formatter/src/printer/mod.rs","crates/formatter/src/printer/module.rs","crates/formatter/src/printer/instr.rs","crates/formatter/src/printer/ty.rs"])
p("C50","Formatting a formatted document changes nothing",
  "Take a well-formed document in ordinary form (C48, C49) with no ignore directive, no blank line after a parameter or result of a type use, none of whose comments is dropped (C33), and with no comment in front of an offset or element written without its keyword. The text it is formatted to is parsed without errors and formatted to itself. So the second formatting request replaces the whole document by itself. (Without any of the three conditions this is false: witnesses are given.)",
  "every such document; every setting when there are no comments, otherwise every setting that measures text by its length in bytes, as the server does",
  "quantifies over all documents and settings; the second formatting sees white space chosen by the first",
  ["crates/formatter/src/lib.rs: format","crates/formatter/src/printer/mod.rs: format_trivias_after_node, format_trivias_after_token","crates/formatter/src/printer/module.rs","crates/formatter/src/printer/instr.rs"])
p("C51","The instructions and their types are those of WebAssembly",
  "The checker knows exactly the instructions of WebAssembly that have a type of their own (423 of them, given by families of operations over the number types and vector shapes), each with its parameter and result types; each has one opcode and no two share one. Every operator offered by completion is an instruction, except i8x16.mul. (That only instructions are offered, and that all are, is false: i8x16.mul is offered, memory.copy is not; witnesses are given.)",
  "every instruction name; every document and position for completion",
  "the table is hundreds of entries written by hand; tests sample a few of them",
  ["crates/service/src/data_set/instr_meta.rs: INSTR_METAS","crates/service/src/data_set/mod.rs: INSTR_NAMES","crates/service/src/features/completion.rs"])
p("C52","The result of a rename is the document with the names replaced",
  "Making the edits of a rename in a well-formed document (C48), in whatever order they are listed, gives a well-formed document: it is parsed without errors, and its tree is that of the document with exactly the edited identifiers replaced by the new name. Which identifiers are edited is C21.",
  "every well-formed document, position and new name",
  "quantifies over all documents and names; the edits are applied to the text and the result is parsed again",
  [FE+"rename.rs: rename, rename_impl","crates/parser/src/parser/mod.rs"])
p("C53","Code actions keep a well-formed document well-formed",
  "Making the edits of any offered code action in a well-formed document (C48) gives a well-formed document: it is parsed without errors, and its tree is that of the document where, in one node, groups of parameters, results or locals next to each other without identifiers are replaced by other such groups with the same types in the same order. A module has the same definitions in the same order under the same names, each number and name of a parameter or local means the same declaration or type as before, signatures keep their types, and go to definition, on a reference to a parameter, local or definition of the module written the same way, leads to the same declaration; such a reference is reported as undefined both before and after, or neither time. The line that describes a function which writes its own signature (in hovers, completion and the call hierarchy) is the same. A parameter or local so written has the same declared type, and the inlay hint behind a use of it shows that type both times. A definition of a module (other than of a table) shares its name with another one before just when it does afterwards, and is then reported as a duplicate both times. This holds if no block type is a result with several types. (Without that condition it is false: splitting such a result gives a text that is not parsed; a witness is given.)",
  "every such document, every requested range and every wanted kind of action",
  "quantifies over all documents and ranges; the edits are applied to the text and the result is parsed again",
  ["crates/service/src/refactorings/func_header_split.rs","crates/service/src/refactorings/params_join.rs",FE+"code_action.rs","crates/parser/src/parser/mod.rs"])
p("C54","White space and comments do not matter",
  "Two well-formed documents (C48) with the same tokens except white space and comments have the same syntax tree up to white space and comments, and get the same diagnostics: one for one, with equal messages, on elements in the same place of the tree. Any white space and comments may be put between the tokens as long as neighbouring tokens stay apart. With the cursor on the same token, go to definition, go to declaration, go to type definition and find references answer with elements in the same places, also in documents with syntax errors whose trees agree up to white space and comments; a rename edits the same places, selection ranges are those of elements in the same places, and the call hierarchy, the document symbols, the inlay hints of the whole document and its semantic tokens other than comments are the same. So is what a hover shows, when the comments above functions say the same. With the cursor behind the same token completion offers the same items in the same order; in a document with syntax errors this is shown for tokens with no form between them and an opening parenthesis before them. With the same tokens selected the same code actions are offered, with the same texts for ranges in the same places. In particular formatting a document changes no diagnostic.",
  "every pair of such documents, every cursor position and every formatter setting",
  "quantifies over all pairs of documents; the answers must agree on each",
  ["crates/service/src/checker/mod.rs: check",FE+"definition.rs",FE+"references.rs",FE+"rename.rs",FE+"document_symbol.rs",FE+"call_hierarchy.rs",FE+"inlay_hint.rs",FE+"semantic_tokens.rs",FE+"selection_range.rs",FE+"hover.rs",FE+"completion.rs","crates/service/src/binder.rs","crates/formatter/src/lib.rs"])
p("C55","Names do not matter",
  "Writing other valid names for the names of a well-formed document (C48), different ones for different ones, gives a well-formed document. It gets the same diagnostics: one for one, on elements in the same place of the tree, with messages that agree up to the names. With the cursor on the same token, go to definition, go to declaration, go to type definition and find references answer with elements in the same places; a rename edits the same places, selection ranges are those of elements in the same places, and the call hierarchy, the document symbols, the inlay hints of the whole document, its semantic tokens other than comments and what a hover shows agree up to the names; with the cursor behind the same token completion offers the same items up to the names, and with the same tokens selected the same code actions are offered. Every element stays on its lines, and the same elements fold over the same lines. In particular, when a rename request edits exactly the identifiers spelled like the old name and the new name does not occur, making the edits gives the document in which the old name is called by the new one, and so no definition, reference or diagnostic changes but for the name; the token in the same place has the new name and can be pointed at, and renaming it back gives the first document again. (That every rename keeps the diagnostics is false: a witness is given.)",
  "every well-formed document, every renaming of its names and every cursor position",
  "quantifies over all documents and all renamings; the answers must agree on each",
  ["crates/service/src/checker/mod.rs: check",FE+"definition.rs",FE+"references.rs",FE+"rename.rs",FE+"document_symbol.rs",FE+"call_hierarchy.rs",FE+"inlay_hint.rs",FE+"semantic_tokens.rs",FE+"selection_range.rs",FE+"hover.rs",FE+"completion.rs","crates/service/src/binder.rs"])
p("C56","Type diagnostics agree with WebAssembly's typing rules",
  "Code that is well typed by the rules of WebAssembly gets no type diagnostic, when parenthesised instructions have exactly the operands they take, called functions declare their parameters themselves, and blocks take and give nothing. Conversely a function body or global value without type diagnostics, made of instructions that have one type each or are drop, and of blocks that take and give nothing and are well typed themselves, is well typed: its instructions, unfolded, run on a stack of types from empty; so is every such parenthesised instruction anywhere. (Without these conditions both are false: operands that a parenthesised instruction takes from the stack, values that a block gives and code after unreachable are reported, and a wrong operand of what select gives, or of local.set, and unparenthesised code in a block are not; witnesses are given.)",
  "every document; bodies of any length and nesting",
  "quantifies over all instruction sequences of any length and nesting",
  ["crates/service/src/checker/typeck.rs","crates/service/src/types_analyzer.rs","crates/service/src/data_set/instr_meta.rs"])
p("C57","Making the edits the server sends",
  "A list of edits has at most one result. When a well-formed document is open, a client that asks for formatting, of all or of a range, makes the edits it is sent and reports the new text is sent the diagnostics it was sent before, in the same places; asking for formatting again then gives edits that change nothing, under the conditions of C50. With rename to a new name, where all identifiers of the old name are edited, it is sent the diagnostics it was sent before up to the name. After the edits of a code action it is sent no syntax error.",
  "every history of messages, every well-formed document, settings, position and name",
  "quantifies over all histories of messages and all documents",
  ["crates/service/src/lib.rs","crates/server/src/server.rs","crates/service/src/features/formatting.rs","crates/service/src/features/rename.rs","crates/service/src/features/code_action.rs"])
p("C58","Layout of formatted text",
  "A formatted document that has no syntax errors, is in ordinary form, has only closed strings and no comment that switches formatting off is its tokens and comments in the one layout that the rules of SpecLayout.v give: every module field, branch and instruction, every closing end, and every operand that holds an instruction starts a new line; the fields of a module, the instructions of a function or block, branches in parentheses and what is in them, and operands of instructions are indented one step more than what holds them; other children are next to each other or one blank apart; the type of a function if it names no type definition, else its first parameter, its first local and the strings of a data segment start a new line exactly if the words up to the next such place would not fit in the line; one empty line is kept where there was at least one after a node; comments take the place of this gap, with the blanks, line breaks and single empty lines between them as they were: behind a token the first one comes after a blank, right behind a node after a blank or, if the words up to the next possible break do not fit, on a new line, and the line break after them is indented like the next child (comments at the start of a branch without parentheses and everything but the tokens between the parameters and the results of a type use without a type are dropped); indentation is by blanks or by tabs as the settings say; the text ends in one line break. If only white space holds line breaks, every line, without blanks at its end, is at most as long as the line width or has no place where a new line may start. The formatting request answers with this text for lines of 80 bytes and the tab size the client sends, the range formatting request with the layout of the smallest node around the range, indented by the column the node starts in. (That no line ends in a blank is false: a witness is given.)",
  "every such document, with or without comments, every setting and every requested range",
  "quantifies over all documents: the gap between any two tokens of any node is determined",
  ["crates/formatter/src/lib.rs","crates/formatter/src/printer/mod.rs","crates/formatter/src/printer/instr.rs","crates/formatter/src/printer/module.rs","crates/formatter/src/printer/ty.rs",FE+"formatting.rs"])
p("C59","Accepting a completion leads to what was offered",
  "In a well-formed document (C48), with the cursor behind an identifier that is a reference, every item of the completion list is a name in scope, and the item inserts it behind the dollar sign. Replacing the identifier by the item's name is one edit that gives a well-formed document. In it, go to definition at the reference gives the definition that was offered (with all others of the same sort and name in the module), and the reference is not reported as undefined; for a parameter or local it gives the first one of that name in the function; for a label, where blocks are directly nested, the innermost one of that name. More generally, whatever valid name is written into a reference, go to definition then gives exactly the definitions of the old document that have that name in the scope of the reference, and go to definition anywhere else in the document leads to the same places as before, with the same names reported as undefined elsewhere. (That every offered label can be gone to is false: a witness is given.)",
  "every well-formed document, every reference by name, every offered item, every position on the reference afterwards",
  "quantifies over all documents and all offered names; the document is edited, parsed and bound again",
  [FE+"completion.rs: completion",FE+"definition.rs: goto_definition","crates/service/src/binder.rs","crates/service/src/checker/undef.rs"])
p("C60","Splitting and joining parameters undo each other",
  "In a well-formed document (C48), after the action that splits a group of parameters is applied, requesting code actions for the text it wrote offers to join them, and applying that gives the document with the parameters in one group again, in the same place and order, with single blanks between them; so if the groups were written that way, the text is the same as at first. After the action that joins groups of parameters is applied, requesting code actions for the text it wrote offers to split it, and applying that gives one group for each parameter, one blank apart. (That the text always comes back is false: a witness is given.)",
  "every well-formed document, every offered action of these two kinds",
  "quantifies over all documents and requested ranges; the document is edited, parsed again and asked again",
  ["crates/service/src/refactorings/func_header_split.rs: act","crates/service/src/refactorings/params_join.rs: act",FE+"code_action.rs: code_action"])
with open('/verif/properties.jsonl','w') as f:
    for x in P: f.write(json.dumps(x,ensure_ascii=False)+"\n")
print(len(P))
