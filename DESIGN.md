# Formal model of H2CO3/parsel in Rocq (Coq 8.16.1)

Parsel is two things: a set of derive macros that turn `struct`/`enum` definitions into backtracking
recursive-descent parsers and printers, and a library (`ast.rs`, `util.rs`) of generic AST nodes,
a token-stream formatter and source-location helpers. The logic is pure: token stream in, value or
error out, plus an advancing cursor. Everything is modelled as total executable Gallina functions.

## Layers of the model (rocq/theories)

Model files: transliterations of code, each definition citing the lines it models.

| file | models |
|---|---|
| `Base.v` | text (lists of Unicode scalar values), line/column positions, spans, token trees |
| `Syn.v` | the part of `syn` 2 / `proc-macro2` the code calls: parse streams with `fork`/`advance_to`, the "unexpected leftover" cell, cursors that look through invisible groups, idents, keywords, operators, groups, `parse2` |
| `Float.v`, `Literal.v` | literal spellings: integer/float/string/char/byte decoding (syn) and encoding (proc-macro2, `LitByte::token`); binary64 as integer mantissa and exponent |
| `Ast.v` | `parsel/src/ast.rs` parser/printer combinators, one Gallina function per `impl Parse` / `impl ToTokens` |
| `Derive.v` | what `parsel_derive` generates: field sequences, variant choice, `chain_error`, `try_parse_variant`, printing |
| `Grammar.v` | deep embedding: every grammar a user can build from derived types and the `ast` module, its parser (fuel-indexed, out-of-fuel is a distinct outcome) and a printer of its values |
| `ToTokens.v` | the printer as Rust's trait dispatch does it (by type), built from the printers of `Ast.v`/`Derive.v`; proved equal to `Grammar.print` on typed values |
| `Conv.v` | conversions between parsel's and syn's literal nodes; equality, order, hash |
| `Punctuated.v` | the `Punctuated`/`Separated` API as a state machine |
| `Fmt.v`, `Lexer.v` | `TokenStreamFormatter` over an arbitrary (failing) writer; the fallback lexer of proc-macro2 |
| `Offsets.v` | `byte_offset`, `char_offset`, `SpanDisplay` |
| `Build.v` | constructors, conversions, `Default`, accessors and setters of every node type: making and editing trees |
| `EitherIter.v` | `Either` as a value and as an iterator |
| `Bounds.v` | the `where`-clauses of the derived impls |
| `NodeEq.v` | derived `PartialEq`, `Ord`, `Hash` of whole trees |
| `HashCalls.v` | the `Hash` impls again, by type, with every call made to the `Hasher` and its bytes |
| `Debug.v` | the `Debug` impls, by type, and the builders of `core::fmt` with both formats |
| `Joined.v` | a text below another: layouts stay layouts |
| `Size.v` | number of nodes of a value; sizes by induction over the spelling |
| `DebugFacts.v`, `DebugTree.v` | the text determines what was shown; equal texts are of equal trees |
| `Display.v` | the `Display` impls, by node type |
| `Cost.v` | the parsers once more, counting calls of `Parse::parse` and their nesting |
| `Expand.v` | the derive macros as code generators: the Rust syntax they emit (with variable names) and a semantics of that fragment of Rust (locals, shadowing, `?`, `return`, streams as references) |
| `Open.v` | `Parse` implementations in general (programs over syn's `ParseStream`), and parsel's nodes and derived types over them |
| `Lang.v` | the language the types of a grammar spell out, as a relation between values and tokens (specification of C62); no model of code |
| `Prefix.v` | documents that begin like the input up to a place, grammars whose types have values (specification and proof of C63); no model of code |

Specification files: vocabulary of the theorem statements, written without looking at the model's
algorithms: `Spec.v` (behaviours: which streams a node accepts / rejects), `LitSpec.v`,
`LitText.v` and the first part of `FloatText.v` (Rust Reference grammar of literals), `Reprint.v`
(equality of token lists up to spans / spelling / invisible groups), first parts of `Term.v`,
`Typed.v`, `LL1.v` (first sets and the LL(1) conditions), `LexRun.v` (`blank`, `placed`: where
tokens lie in a text).

`Prop*.v` hold the property theorems, each followed by `Print Assumptions` and with `Example`s
showing that the hypotheses are met. All other files are lemmas.

### Effects
* `Result` is data; a panic is the explicit outcome `OPanic`; non-termination is the explicit
  outcome `ODiverge` (fuel exhausted). `yes (tbeh E t) s v s'` means "with enough fuel": fuel does
  not occur in property statements (`Mono.v`: more fuel never changes another outcome).
* `&ParseStream` mutation: a parser is `pstate -> outcome A * pstate`, so the stream after a
  *failure* is visible too.
* Generic combinators take arbitrary parsers as arguments: their theorems also cover hand-written
  `Parse` impls. The deep embedding quantifies over all grammars, including mutually recursive ones.

## Trusted base
* Coq's kernel, including `vm_compute` for finite sweeps (256 bytes, keyword list) and examples.
* Axioms: none. `Print Assumptions` of every theorem in `MANIFEST.json` prints "Closed under the
  global context" (the commands are in the `Prop*.v` files, the output is in the build log). A scan of the loaded libraries also shows
  `Coq.ssr.ssrunder.Under_rel.*`: sealed module fields of the standard library that come in with
  `ZifyBool`; no theorem uses them.
* No functors, module types, `Declare Module`, section-less `Variable`/`Hypothesis`, `Admitted`.
* The reading of `/repo`: every model definition cites file and lines.
* `syn` 2.0.66, `proc-macro2` 1.0.85 (fallback implementation, i.e. outside a running compiler),
  `quote`, `ordered-float` and `core` are not in `/repo`; the functions of theirs that parsel calls are
  re-modelled from their published source, from memory, in `Syn.v`, `Literal.v`, `Float.v`,
  `Lexer.v` and in the `Punctuated` part of `Punctuated.v`. These are trusted to match.
* Unicode tables (`XID_Start`, `XID_Continue`, white space, printable) are the parameter
  `unicode`: theorems hold for all tables; those about lexing assume `sane_tables` (no
  delimiter, quote, digit or operator character is an identifier start, and the like), met by
  the real tables and shown for an ASCII instance (`ascii_sane`).

### Modelled
`parsel/src/ast.rs`: all `Parse` and `ToTokens` impls; `define_keywords!`, `CustomIdent`; literals
with their `token`, `TryFrom`/`From` syn and primitive conversions, `Eq`/`Ord`/`Hash`; the
`Punctuated`/`Separated` mutation and access API, `FromIterator`, `Extend`; `LeftAssoc`,
`RightAssoc`; `Either` with its iterator, `map`, `flip`, `transpose`, `extend`; constructors, `From`,
`Default`, `set_span`, accessors and mutable references (as reading and writing of parts) of all nodes.
`parsel/src/util.rs`: everything (offsets, `SpanDisplay`, `chain_error`, `try_parse_variant`,
formatter, helpers). `parsel_derive`: generated behaviour of `Parse`, `ToTokens`, `FromStr`,
`Display`, and `add_bounds`.

### Not modelled
* rustc: macro expansion, type and trait checking, borrow checking; memory and time (but the number and nesting of `Parse::parse` calls is, in `Cost.v`).
* `Debug` of `TokenStream`, `Span` and the library's errors; `AsRef` views and `Cow`/`Box` conversions (each is one call). `Borrow` views only as far as C64 speaks about them.
* Fields of `syn` AST types individually (C61 covers every implementation of `Parse` as a parameter, and `TokenStream`/`TokenTree` as instances;
  the closed grammars of the other properties contain none).
* Compiler-backed `proc_macro` spans (only the fallback is modelled); `Span::join` across files
  follows the fallback.
* `str` order is taken as order of scalar values; `C44_strings_compare_as_utf8` proves it equal to the order of UTF-8 bytes.
* Pretty printing of literal tokens relies on `Display` of `Literal`/`Ident`/`Punct` writing their text.

### Simplifications that restrict theorems
* C10: `typed` asks for values the Rust types cannot exclude but printing needs (identifiers that
  are words of the right kind, literals in range, an `Any` with the items it would read); C38 in
  the direction value -> text additionally asks for `writable` (identifiers that can be lexed).
* C30/C38/C45/C47 at text level: source texts consist of Unicode scalar values (`valid_char`).

## Findings
* C05: the README's "furthest variant" heuristic fails for alternatives that run out of input at
  top level (`C05_furthest_refuted`): end-of-input errors are spanned at the call site.
* C09/C38: parse-print-parse is not the identity when an operator was written against the next
  operator (`C09_spacing_refuted`) or for `-0` in a `Lit` (`C09_minus_zero_refuted`).
* C11: tokens left in a group do not trigger backtracking but make the whole parse fail.
* C20: the right-recursive enum accepts strictly more than `RightAssoc`.
* C26: `-0` parses as `Lit::Int(0)`; a non-negative `Lit::Int` comes back as `Lit::Uint`.
* C29: `1e999` parses to an infinite `LitFloat` whose printing panics.
* C30: streams no lexer produces may not survive formatting (`C30_*_refuted`).
* C32: after a writer error the indentation level is not restored.
* C33: `char_offset` of a position past the text counts differently from `byte_offset`.
* C34: the "last character" of a span that ends in a newline is displayed on the next line.
* C44: with the `b'…'`-less token of `syn::LitByte::new` the way back panics.
* C51: an enum with a named field `tokens` does not compile with `derive(ToTokens)` (the binding hides the
  stream), nor does an enum without variants (`match self {}` on a reference); `derive(Parse)` of an enum uses
  the bare name `Err`.
* C52: `NotEof` at the end of input reports "unexpected end of input, unexpected end of input".
* C53: `0.0 == -0.0` although they print differently.
* C54: `NotEof` displays as the empty text, which `NotEof` refuses.
* C55: the README's Boolean-expression parser makes more than 4^d calls on d nested parentheses.
* C57: an `Ident` made from a keyword, a non-negative `Lit::Int`, a `Many` with a separator at the end print but do not
  read back as themselves (`C57_*_refuted`).
* C59: common ends cannot be factored out, `Maybe` and `Separated` are committed, the order of variants counts (`C59_*_refuted`);
  the README's exponential grammar and its linear factored form cannot be told apart (`C59_readme_factored`).
* C60: a new variant may take a token needed after the enum, if the new grammar is not checked; a variant in front may take
  what later ones read (`C60_*_refuted`).
* C61: `Any` of an item that reads nothing, or never fails (`Any<TokenStream>`), never ends (`C61_any_must_eat`, `C61_any_must_fail`).
* C62: without the one-token condition, something the types spell may be refused (`Any<Ident>` followed by `Ident`), two variants may spell the same, and the order of `<` and `<=` counts.
* C63: an error may be early (`Any` gives up an item that fails half way), may hide an earlier token left over in a group, and is late if a type has no values (`C63_*_refuted`).
* C64: ordered-float's hash of a subnormal double drops its highest digit, so distinct keys may collide under every hasher (`C64_subnormal_refuted`).
* C65: `Either` shows only its contents and associations of associations with one operator do not show where they nest, so that trees which are not equal can have the same `{:?}` text (`C65_either_side_refuted`, `C65_nesting_refuted`).
* C66: a flat text `x + x + …` gives a `LeftAssoc` tree as deep as the text is long, so dropping, cloning and printing it
  recurse that deep (`C66_flat_text_deep_tree`).
* C67, C68: a type that is read back alone may swallow what follows it (`C67_unchecked_refuted`); joined texts may merge or
  complete each other (`C68_unchecked_refuted`, `C68_errors_do_not_stay_refuted`).
* C58: a space between two tokens that touched may change the tokens (`1.foo`, `+=`): `C58_separating_tokens_refuted`.
* C40, C58: which error an enum reports depends on the order of the locations (`C40_messages_refuted`), so a doc comment
  and the attribute it stands for may give different messages (`C58_doc_comment_errors_refuted`).
* C48: the documented `BoolAtEnd` grammar has values that print to tokens it does not read back.

## How each property is proved
Statements: `properties.jsonl`; theorem names and provisos: `MANIFEST.json`.

* C01-C06, C11-C16, C19, C20, C36, C39: generic theorems about the combinators for arbitrary
  argument parsers (relational specs: sequence, ordered choice, repetition), by induction over field /
  variant lists and loop fuel. C05 is expected to be false at end of input: `_refuted` theorem plus
  the positive case.
* C07, C08, C40, C41, C43: induction over fuel for every grammar of the deep embedding. C40's error messages: a relational
  (parametricity) argument over corresponding places (`SimSpan`), with the order of ends as the only thing errors depend on.
* C09: from C07 and a simulation theorem (parse commutes with respelling/span changes); the
  unrestricted claim is refuted (`Joint` operators, `-0`).
* C10: LL(1)-style condition on the grammar (choices decided by the next token, by `NotEof`, or after a
  common prefix of fields), induction over values.
* C17, C18: termination by well-founded induction on (remaining tokens, left-call order);
  divergence by induction on fuel.
* C21-C23: tree/list inductions and an invariant over API histories.
* C24: decision rule over the keyword list.
* C25-C29, C44: codec theorems; bytes by a 256-case sweep; floats on exact integer arithmetic (`FloatShort`: what lies
  between a decimal that reads as a double and the double reads as it too, so the two neighbours of n digits decide; 17
  digits suffice because 10^16 > 2^53).
* C30-C32, C42: formatter as a writer program; lexer proved to invert it.
* C33, C34: offsets by induction on the source text.
* C35: finite sets of types.
* C37: iterator laws by induction on histories.
* C38, C45 (text level): composition of C09/C10 and C30; C47: invariant over the run of the lexer.
* C46: container laws by induction.
* C48: instances of C17, C10, C38 and C45 for the published grammars (`Usage.v`), whose checks are run
  by the kernel.
* C49: the parser builds a `tree` relation between values and tokens (induction over fuel); spans follow
  from C47's layout of the text, which printing again does not disturb.
* C50: the token stream is flattened into pieces; `between a b` says what stands between two neighbours; the
  formatter's calls are shown equal to that layout by induction over token trees, and lines are read off it.
  The two doc tests of util.rs:507-628 are run as examples.
* C51: `Expand.v` models what the macros *write*; running it is shown equal to `Derive.v` (for arbitrary field
  parsers and printers) and to `pty`/`print` (for grammars), so that every other theorem holds of the generated
  code. Names matter: the theorems ask that no constant or function in scope has the name of a generated
  variable, and that no named enum field is called `tokens`.
* C52: `complaint t s e` (PropMsg.v) is the table of messages and places, written from the documentation; every leaf
  parser's failure is shown to be in it, and `origin` (C06) carries it to every grammar.
* C53: equality is computed by recursion over trees and shown equal to equality after forgetting locations and zero
  signs; the converse direction (same tokens, equal trees) is C10 plus C40. The order is characterised by an
  inductive `less`.
* C54: the text of one literal (minus sign glued) is lexed by the step lemmas of `LexRun`; the other nodes by C38;
  C40 carries the parse from the printed tokens to the lexed ones.
* C55: an instrumented copy of the parsers erases to them (`cost_erase`); fuel bounds depth, and fuel linear in the
  input suffices (measure: tokens, then rank of the left-recursion-free production, then height of the type). The
  lower bounds are inductions over the value and over the nesting. Linear number of calls: first sets, and "stop sets"
  (tokens before which a type may stop although it began to read them), computed by iteration and re-checked by
  `predictive`; invariant of every parser (`lin` in `Linear.v`): it read nothing and made few calls, or read on and paid
  A calls per token, or failed or stopped after looking far ahead, but before a token that rules out all the
  alternatives still to be tried, so that this can happen once.
* C56: `origin` (C06) gives the stream a failing node was reached with, `placed` (C47) where its tokens lie; the first and
  last character of a bracketed group are positions next to its ends. Errors of the lexer: the invariant of its loop says
  which brackets are open. Leftovers: the parsers' frame condition says that a remembered leftover is a token of the input.
* C59: what can be seen of a parser (`seen`: tokens printed and stream left, place of the error, panic) is compositional
  (`P_*` lemmas in `Refactor.v`), since speculation is faithful (`lawful_pty`); each step is proved for observations, forth without
  more fuel and back with some, and `same_sound` by induction on the fuel and on the derivation of `same_type`.
* C60: old values are well-typed in the new grammar (induction over `typed`), so C10 reads their tokens; an accepted stream is `sim`ilar to the
  printed one, and `sim` is symmetric; the local form from `enum_yes`/`enum_no` and monotonicity of the layers (`settled_pty`).
* C61: `written` programs are lawful and monotone in fuel (induction over the derivation), so every node over them has the exact behaviour of
  Combinators.v at each fuel, and compactness (finitely many parts run) removes the fuel; printing and termination compose by induction over
  the runs, recursive types by induction over fuel respectively input size.
* C62: `parsed_spelled` by induction on fuel over the exact behaviours of the nodes (Lang.v); the converse by way of printing: what is spelled is a typed value
  whose printed form is the spelled tokens up to spacing and spelling of literals (`spells_reprints`), a checked grammar reads the printed form back (C10), parsing does not
  see the difference (`sim_parses`), and values spelled by the same tokens that differ in locations only are equal (`spells_same`).
* C63: by induction on fuel, what a successful parse has read can be completed to something spelled, also where it left tokens in a group (`going_pty`); by induction on
  the trace of an error (`origin`), so can what was read before the failing leaf; the missing rests are values of the remaining types (`fillable`), which exist by `inhabited`.
* C64: `hv` depends on the location-free tree only (induction on values); byte strings are prefix-free by induction on values along their types (`hv_inj`: fixed-width numbers,
  UTF-8 never contains 0xff, lengths before elements, discriminants before fields); maps by induction on histories.
* C65 (PropDebug.v): the text with indentation is first shown to be a direct rendering with the level as a parameter (`show_lines`); that is uniquely readable (`rend_inj`: induction over documents, each item being followed by a comma or a bracket; strings and characters are read back by the literal parsers' lemmas). Then equal documents are of equal trees, by induction over values along the types.
* C66 (PropSize.v): induction over the spelling (C62). Each type has a level (highest rank of the productions it can begin with, then its height, as in C18/C55) that falls towards the parts in first place; a value spelled by no tokens has at most `from_nothing level` nodes, and one spelled by n > 0 tokens at most `2 K n - K - slack level`, so that each token pays for the nodes above it and the empty parts beside it. Rows (fields, items, pairs) are composed by `r_cons`; a pair is never empty by the check. The other direction is a plain induction. Constants depend on the grammar only (`exists k` stands before the text and the Unicode tables).
* C67 (PropContext.v): the induction of C10 (`read_back`) already carries the beginnings of what follows; the tables are computed for them. A row of values keeps the invariant that what is left begins with something one of the types begins with (`row_seen`). For documents the printed form and the document are similar (C62), parsers respect similarity (`par_pty`), and since the tokens read spell the value read, they are the document and the value is that of the document (`spells_same_mut`), so what is left is exactly the rest.
* C68 (PropJoin.v, Joined.v): a layout derivation (`laid`, C58) of a text stays one when a text is put below it: every condition on what follows a token, a comment or a gap holds of the line break (`laid_inside`, `laid_below`, by induction); then C58 lexes the joined text. The tokens spell the `Many` of the trees, since each part spells its tree (C62), and a checked grammar reads what is spelled; C40 takes the result to the locations of the joined text. For written trees, the lexer's round trip (`relexes`, C30) holds before any break, so in front of the line break; C10 does the rest.
* C19/C20 (PropTree.v): the value denoted by the tree under any meaning of operators is the left (right) fold over the operands in the order of the source.
* C58: layouts are derivations of the inductive `laid` (`Laid.v`); by induction on them the lexer's loop skips each gap and
  reads each token (locality lemmas of `LexFacts`/`LexWf`: what may follow a token does not change it); then C40 applies.

Not expressible here: compile-time behaviour of rustc itself (trait resolution of the generated
bounds), bytes of memory and seconds of time.
* C57: a history of API calls is a derivation of the mutually inductive `obtainable` (one rule per function); induction shows
  every obtainable value `typed` with writable identifiers, then C10 and C38 apply. Locality of edits: every path is a
  one-hole context, whose tokens are a one-hole token stream.
