{"id": "C01", "title": "A derived struct parser is the in-order sequence of its fields", "statement": "For a type with #[derive(Parse)] on a struct (named, tuple or unit), parsing succeeds exactly when the field types parse one after another, in declaration order, each starting where the previous one stopped; the resulting value holds those field values in that order, and the stream is left where the last field stopped. The first field that fails aborts the parse with that field's error.", "quantifier": "every list of fields, every field parser (including hand-written Parse impls), every input stream", "why_tests_cant": "A test fixes one struct and a few inputs; the claim ranges over all field lists and all parsers for the field types.", "anchors": ["parsel_derive/src/parse.rs: expand_struct, expand_fields"]}
{"id": "C02", "title": "A derived enum parser is ordered choice: the first variant that parses wins", "statement": "For a type with #[derive(Parse)] on an enum, the result is variant k if and only if variant k parses from the starting position and every earlier variant fails from that same starting position; the stream then stands exactly where variant k stopped, and later variants are never consulted.", "quantifier": "every list of variants, every field parser, every input stream", "why_tests_cant": "Which variant wins depends on the failure behaviour of all earlier ones on all inputs.", "anchors": ["parsel_derive/src/parse.rs: expand_enum, expand_variants", "parsel/src/util.rs: try_parse_variant"]}
{"id": "C03", "title": "Failed speculation never moves the stream", "statement": "When an alternation (derived enum or Either) fails, and when the optional prefix of Maybe or the next item of Any or the next separator of Separated does not match, the caller's stream is exactly as it was before that attempt, however far the attempt had advanced and whatever leftovers it had recorded inside groups.", "quantifier": "every inner parser, every stream state", "why_tests_cant": "The attempt may fail after an arbitrary amount of progress; tests sample a few failure points.", "anchors": ["parsel/src/util.rs: try_parse_variant", "parsel/src/ast.rs: impl Parse for Either / Maybe / Any / Separated"]}
{"id": "C04", "title": "Alternation reports the error whose span ends last; ties go to the later alternative", "statement": "When every variant of a derived enum (or both sides of Either) fails, the reported error is one of the alternatives' own errors, no alternative's error has a span ending strictly later, and every alternative declared after the reported one has an error ending strictly earlier.", "quantifier": "every non-empty list of alternatives and every combination of errors", "why_tests_cant": "Needs all orderings of all error positions over any number of variants.", "anchors": ["parsel/src/util.rs: try_parse_variant (max_by_key)", "parsel/src/ast.rs: impl Parse for Either"]}
{"id": "C05", "title": "README heuristic: the error of the variant that got furthest is the one reported", "statement": "The README promises that alternation reports the error of the variant that got furthest in the token stream before failing. Determine for which inputs this holds: it holds when every alternative fails at a token of the same source; it must be checked for alternatives that fail at the end of the input.", "quantifier": "every enum, every input", "why_tests_cant": "The heuristic is span based; a counterexample or a proof is needed over all inputs, not a sampled error message.", "anchors": ["README.md: Span and Error Reporting", "parsel/src/util.rs: try_parse_variant", "parsel/src/ast.rs: impl Parse for Either"]}
{"id": "C06", "title": "Error chaining keeps the innermost span and accumulates the path outermost-first", "statement": "An error that surfaces from a derived parser nested to any depth carries the span of the original leaf error, and its message is the list of 'error parsing Enum::Ctor::field' (or 'Ctor::field' for structs) lines from the outermost to the innermost production, followed by the original message.", "quantifier": "every nesting depth and every leaf error", "why_tests_cant": "Unbounded nesting depth.", "anchors": ["parsel/src/util.rs: chain_error", "parsel_derive/src/parse.rs: expand_fields"]}
{"id": "C07", "title": "Printing what was parsed reproduces the consumed tokens", "statement": "If a value of any grammar built from derived structs/enums and the ast module parses successfully, then its to_tokens output is the sequence of tokens the parse consumed, in the same order and nesting, up to: invisible (None-delimited) groups, the spelling (not the value) of literals, source spans, and the Joint/Alone flag of the last character of an operator.", "quantifier": "every (possibly mutually recursive) grammar, every input", "why_tests_cant": "Ranges over all grammars and inputs; the repo has a single round-trip test.", "anchors": ["parsel_derive/src/parse.rs", "parsel_derive/src/to_tokens.rs", "parsel/src/ast.rs: all impl Parse / impl ToTokens"]}
{"id": "C08", "title": "A whole-input parse accounts for every token, also inside every group", "statement": "parse2/parse_str/FromStr succeed only if no token is left unread at the top level or inside any parenthesised/bracketed/braced group the accepted parse entered; consequently the printed tokens of the result are all the tokens of the input, up to the equivalence of the previous property.", "quantifier": "every grammar, every input", "why_tests_cant": "Leftovers can hide at any nesting depth, including inside groups entered speculatively.", "anchors": ["parsel/src/ast.rs: impl Parse for Paren/Bracket/Brace, FromStr impls", "parsel_derive/src/from_str.rs", "parsel/src/lib.rs: parse2, parse_str"]}
{"id": "C09", "title": "Re-parsing a printed parse result gives the same value", "statement": "If a whole input parses to v, then parsing to_tokens(v) again yields v (up to spans), provided printing preserved operator spacing; without that proviso it can fail, because an operator's final character is always printed as Alone. For grammars whose choices are decided by the next token, or by the next token after a common prefix of fields (and whose literals are not -0) no proviso is needed.", "quantifier": "every grammar, every input", "why_tests_cant": "Depends on every decision the backtracking parser takes on the printed stream.", "anchors": ["parsel_derive/src/parse.rs", "parsel_derive/src/to_tokens.rs", "parsel/src/ast.rs"]}
{"id": "C10", "title": "Parse after print is the identity on constructed values of unambiguous grammars", "statement": "For a grammar whose choices, optional prefixes and repetitions are decided by the next token (choices between variants: possibly after leading fields that the variants have in common), every well-formed value (not only those produced by the parser) satisfies parse(to_tokens(v)) = v.", "quantifier": "every grammar passing a decidable check, every value", "why_tests_cant": "All grammars and all (unboundedly large) ASTs.", "anchors": ["parsel_derive/src/parse.rs", "parsel_derive/src/to_tokens.rs", "parsel/src/ast.rs", "parsel/tests/roundtrip.rs"]}
{"id": "C11", "title": "Paren/Bracket/Brace parse exactly one group with the right delimiter", "statement": "Paren<T>/Bracket<T>/Brace<T> succeed exactly when the next token tree (looking through invisible groups) is a group with that delimiter and T parses from its contents; exactly that one token tree is consumed. Unread contents do not make the node fail, are not backtracked over, and make the whole parse fail later.", "quantifier": "every inner parser, every stream", "why_tests_cant": "Interaction of nested leftovers with speculative parsing over all inputs.", "anchors": ["parsel/src/ast.rs: Paren, Bracket, Brace"]}
{"id": "C12", "title": "Maybe<P, T> commits once its prefix matched", "statement": "Maybe<P,T> is absent, consuming nothing, exactly when P fails; if P parses then T must parse right after it, otherwise the whole Maybe fails (it does not fall back to absent). Printing an absent Maybe emits nothing.", "quantifier": "every P, T and stream", "why_tests_cant": "All parsers and inputs.", "anchors": ["parsel/src/ast.rs: Maybe"]}
{"id": "C13", "title": "Punctuated<T,P> accepts exactly the terminated alternation filling the stream", "statement": "Punctuated<T,P> succeeds exactly when the current stream (to the end of the enclosing group) is T P T P ... with an optional trailing P (possibly empty); it then consumes everything and yields the values and separators in order.", "quantifier": "every T, P and stream", "why_tests_cant": "Unbounded length.", "anchors": ["parsel/src/ast.rs: Punctuated"]}
{"id": "C14", "title": "Many<T> accepts exactly the back-to-back repetitions of T filling the stream", "statement": "Many<T> succeeds exactly when the stream is a (possibly empty) concatenation of T's, consumes all of it and yields the T's in order; printing emits just the items.", "quantifier": "every T and stream", "why_tests_cant": "Unbounded length.", "anchors": ["parsel/src/ast.rs: Many, NotEof"]}
{"id": "C15", "title": "Separated<T,P> parses one or more T separated by P and never a trailing P", "statement": "Separated<T,P> succeeds exactly when a T is followed by zero or more (P T) and then P does not parse; if P parses but no T follows, the whole parse fails. The result is never empty and never ends in punctuation.", "quantifier": "every T, P and stream", "why_tests_cant": "Unbounded length.", "anchors": ["parsel/src/ast.rs: impl Parse for Separated"]}
{"id": "C16", "title": "Any<T> is greedy and never fails", "statement": "Any<T> returns the longest run of consecutive T's: each item parsed from where the previous stopped, T fails where the run ends, the stream is left there; it never returns an error.", "quantifier": "every T and stream", "why_tests_cant": "Unbounded length.", "anchors": ["parsel/src/ast.rs: Any"]}
{"id": "C17", "title": "Repetition terminates when items consume input, and diverges when an item can match nothing", "statement": "Any<T>, Separated<T,P>, Punctuated<T,P> terminate on every finite input if T (or, where both are read, T or P) always consumes at least one token when it succeeds; if instead T succeeds without consuming (e.g. Any<Empty>, Any<Maybe<..>>), Any<T> never returns.", "quantifier": "every item parser and stream", "why_tests_cant": "Non-termination cannot be observed by a finite test; termination is a claim about all inputs.", "anchors": ["parsel/src/ast.rs: Any, Separated, Punctuated"]}
{"id": "C18", "title": "Grammars without left recursion always terminate; left-recursive ones never return", "statement": "If no production can reach itself without consuming a token and no repetition has a possibly-empty body, then parsing terminates on every input; a production that starts by parsing itself never returns, on any input.", "quantifier": "every grammar, every input", "why_tests_cant": "Termination over all inputs.", "anchors": ["README.md: Dealing with Left Recursion", "parsel_derive/src/parse.rs", "parsel/src/ast.rs: LeftAssoc, RightAssoc"]}
{"id": "C19", "title": "LeftAssoc builds the left-leaning tree", "statement": "LeftAssoc<O,R> accepts exactly what Separated<R,O> accepts, and e1 o1 e2 o2 e3 ... becomes ((e1 o1 e2) o2 e3) ...: evaluating the tree with any meaning of operators equals folding from the left.", "quantifier": "every operand/operator parser, stream and operator meaning", "why_tests_cant": "Unbounded operator chains.", "anchors": ["parsel/src/ast.rs: LeftAssoc"]}
{"id": "C20", "title": "RightAssoc builds the right-leaning tree and agrees with the right-recursive grammar", "statement": "RightAssoc<O,L> accepts exactly what Separated<L,O> accepts, and builds e1 o1 (e2 o2 (e3 ...)); whenever it succeeds, the right-recursive enum { Binary(L,O,Box<Self>), Lhs(L) } parses the same input to the same tree.", "quantifier": "every operand/operator parser, stream", "why_tests_cant": "Unbounded operator chains.", "anchors": ["parsel/src/ast.rs: RightAssoc"]}
{"id": "C21", "title": "Associative trees print their operands and operators in source order", "statement": "The tokens of a LeftAssoc/RightAssoc tree are those of the flat operand/operator sequence; flattening after parsing gives back exactly the parsed sequence, and no two different trees of one kind flatten to the same sequence.", "quantifier": "every tree", "why_tests_cant": "Unbounded trees.", "anchors": ["parsel/src/ast.rs: impl ToTokens for LeftAssoc / RightAssoc"]}
{"id": "C22", "title": "A Separated is never empty and never ends in punctuation, whatever is done to it", "statement": "After any history of creation (parse, try_from) and mutation (insert, push, push_value, both extends, element/pair mutation), a Separated is non-empty and without trailing punctuation, so len, first, last, first_mut, last_mut, into_first_rest and into_last_rest never panic. The only panicking mutation is insert beyond the end.", "quantifier": "every history of public API calls", "why_tests_cant": "All call sequences of any length.", "anchors": ["parsel/src/ast.rs: Separated"]}
{"id": "C23", "title": "into_first_rest / into_last_rest lose nothing", "statement": "into_first_rest returns the first value and, in order, each separator paired with the value after it; into_last_rest returns the last value and, in order, each value paired with the separator after it; re-interleaving either result gives back the sequence.", "quantifier": "every Separated value", "why_tests_cant": "Unbounded length.", "anchors": ["parsel/src/ast.rs: Separated::into_first_rest, into_last_rest"]}
{"id": "C24", "title": "Keywords and custom identifiers partition the words", "statement": "With define_keywords!, keyword type K parses exactly the word K; CustomIdent<Keywords> parses exactly the words that are not in the list; hence every word token is accepted by CustomIdent or by some keyword type, never by both. Word accepts every word, including Rust keywords and underscore. Raw identifiers are distinct words. The plain Ident accepts exactly the words that are not Rust keywords or underscore.", "quantifier": "every keyword list, every token stream", "why_tests_cant": "All keyword lists and all identifiers.", "anchors": ["parsel/src/ast.rs: CustomIdent, define_keywords!, Word, KeywordList"]}
{"id": "C25", "title": "Integer literals: exact range and round trip", "statement": "LitInt accepts an integer literal (any radix, underscores, suffix, optional minus) exactly if its value fits i64, LitUint exactly if it is non-negative and fits u64, and yields that value; every i64/u64 prints to tokens that parse back to it.", "quantifier": "every i64/u64, every literal spelling", "why_tests_cant": "2^64 values and unbounded spellings.", "anchors": ["parsel/src/ast.rs: LitInt, LitUint, TryFrom<syn::LitInt>"]}
{"id": "C26", "title": "Lit classifies integers by sign, so a non-negative Lit::Int does not survive a round trip", "statement": "Parsing Lit yields Lit::Int exactly for integer literals with a minus sign (so its value is <= 0; `-0` gives Lit::Int(0)) and Lit::Uint for those without. Every Lit value round-trips through its tokens except Lit::Int(n) with n >= 0, which comes back as the (unequal) Lit::Uint(n), and non-finite floats.", "quantifier": "every Lit value and literal spelling", "why_tests_cant": "Infinite value space.", "anchors": ["parsel/src/ast.rs: TryFrom<syn::Lit> for Lit, From<Lit> for syn::Lit"]}
{"id": "C27", "title": "LitByte::token fits its 8-byte buffer and denotes the byte", "statement": "For each of the 256 byte values, formatting the byte literal does not overflow the fixed buffer, the resulting literal lexes, and it parses back to the same byte.", "quantifier": "all 256 bytes", "why_tests_cant": "Doc-tests sample seven bytes; the panic freedom claim is for all.", "anchors": ["parsel/src/ast.rs: LitByte::token"]}
{"id": "C28", "title": "String, char and byte-string literals round trip", "statement": "For every string, character and byte string, the printed literal token parses back to the same value.", "quantifier": "every Unicode string / scalar value / byte sequence", "why_tests_cant": "Infinite value space, escape sequences at any position.", "anchors": ["parsel/src/ast.rs: LitStr, LitChar, LitByteStr"]}
{"id": "C29", "title": "Float literals: every finite double round-trips; infinities parse but cannot be printed", "statement": "A float literal is read as the binary64 number nearest to the decimal it writes, ties to even. Every finite f64 prints to a literal that parses back to it, in plain positional notation with no superfluous zeros: no decimal with fewer significant digits reads as the number, and none with as many that does is closer. A literal that overflows (1e999) is accepted as infinity, and printing that node panics; LitFloat never holds NaN.", "quantifier": "every finite double, every float spelling", "why_tests_cant": "2^64 values; the panic needs an unusual input.", "anchors": ["parsel/src/ast.rs: LitFloat"]}
{"id": "C30", "title": "Formatter output lexes back to the same tokens", "statement": "For every token stream the Rust lexer can produce, and any formatter (pretty, compact, or with_indent with whitespace), the written text lexes back to the same token stream.", "quantifier": "every token stream, every indentation string", "why_tests_cant": "The repo checks it by random testing only.", "anchors": ["parsel/src/util.rs: TokenStreamFormatter::write", "parsel/tests/token_fmt_qc.rs"]}
{"id": "C31", "title": "Pretty and compact output differ only in whitespace; compact output is one line", "statement": "For every token stream the pretty and compact texts are equal after removing whitespace between tokens, and the compact text contains no line break other than those inside tokens' own spelling.", "quantifier": "every token stream", "why_tests_cant": "All token streams.", "anchors": ["parsel/src/util.rs: TokenStreamFormatter"]}
{"id": "C32", "title": "Formatter state: indentation is restored and writer errors stop output at once", "statement": "After a successful write the formatter's indentation level is what it was before, so writing again behaves like a fresh formatter at that level; with a writer that fails, what was written is a prefix of the full output and the error is returned, nothing is written after the failure.", "quantifier": "every stream, every failing writer", "why_tests_cant": "Failure may happen at any write.", "anchors": ["parsel/src/util.rs: TokenStreamFormatter::write"]}
{"id": "C33", "title": "byte_range/char_range/source_substring select exactly the spanned text", "statement": "For every source text and every position, converting the position to line/column and back gives its byte (resp. char) offset, so the byte range of a span of the source is the exact extent of the spanned text, lies on character boundaries, and source_substring does not panic; for locations outside the text the byte offset is clamped into the text.", "quantifier": "every Unicode source, every span", "why_tests_cant": "All texts incl. multi-byte characters and all line structures.", "anchors": ["parsel/src/util.rs: byte_offset, char_offset, SpannedExt"]}
{"id": "C34", "title": "Span display is 1-based and inclusive", "statement": "SpanDisplay of a span prints start line, start column + 1, end line, end column; distinct (start, end) positions print differently, and a one-character span prints equal start and end columns.", "quantifier": "every span", "why_tests_cant": "All positions.", "anchors": ["parsel/src/util.rs: SpanDisplay"]}
{"id": "C35", "title": "Derived where-clauses bound exactly the non-recursive field types", "statement": "The where-clause of the derived impl contains the original predicates, plus one bound for each distinct type of a field not marked #[parsel(recursive)], and nothing else; unions are rejected.", "quantifier": "every struct/enum definition", "why_tests_cant": "All definitions.", "anchors": ["parsel_derive/src/util.rs: add_bounds, field_type"]}
{"id": "C36", "title": "Either<L,R> behaves like the derived two-variant enum", "statement": "Either<L,R> accepts the same inputs, consumes the same tokens and picks the same side as the derived enum { Left(L), Right(R) }; on failure both report an error with the same span.", "quantifier": "every L, R and stream", "why_tests_cant": "All parsers and inputs.", "anchors": ["parsel/src/ast.rs: Either", "parsel_derive/src/parse.rs"]}
{"id": "C37", "title": "Either as an iterator is the iterator of its active side", "statement": "Either of two iterators yields exactly the items of the active side, tagged with that side, in order; size_hint, count, nth, last and next_back agree with those of the active side; flip is an involution and map/transpose preserve the side.", "quantifier": "every iterator state and call sequence", "why_tests_cant": "All iterators and histories.", "anchors": ["parsel/src/ast.rs: Either: Iterator, DoubleEndedIterator"]}
{"id": "C38", "title": "from_str after to_string is the identity on parsed values", "statement": "If a value was parsed from source text by from_str, then formatting it with Display (pretty or alternate) and parsing that text again yields the same value (up to spans), provided printing preserved operator spacing; for grammars whose choices are decided by the next token, without that proviso.", "quantifier": "every grammar, every source text", "why_tests_cant": "Composition over all grammars and texts.", "anchors": ["parsel_derive/src/from_str.rs", "parsel_derive/src/display.rs", "parsel/src/util.rs: format_ast_node", "parsel/src/ast.rs"]}
{"id": "C39", "title": "Eof, NotEof and Empty are pure assertions", "statement": "Empty always succeeds; Eof succeeds exactly at the end of the current stream or group; NotEof exactly when not at the end. None of them consumes or prints anything.", "quantifier": "every stream", "why_tests_cant": "All inputs; composition with every other parser.", "anchors": ["parsel/src/ast.rs: Empty, Eof, NotEof"]}
{"id": "C40", "title": "Parse results do not depend on spans", "statement": "Two inputs that differ only in source locations have the same parse outcome: both fail or both succeed, with values equal up to spans. If moreover the tokens are in the order of one source file in each of the inputs, then an error has the same message in both, and is located at the corresponding token, bracket, negative number or nowhere; and so is every part of a value. (With locations in another order the message may differ, since of the alternatives of an enum the one that ends last is reported.)", "quantifier": "every grammar, every pair of span assignments", "why_tests_cant": "Hyperproperty over pairs of runs.", "anchors": ["parsel_derive/src/parse.rs", "parsel/src/ast.rs"]}
{"id": "C41", "title": "Parsing only ever consumes a prefix", "statement": "Every parser leaves the stream at a suffix of what it was given (looking into invisible groups); it never skips, reorders or invents tokens, and it never un-reads.", "quantifier": "every grammar, every input", "why_tests_cant": "All grammars and inputs.", "anchors": ["parsel_derive/src/parse.rs", "parsel/src/ast.rs"]}
{"id": "C42", "title": "with_indent accepts exactly whitespace", "statement": "TokenStreamFormatter::with_indent returns a formatter exactly when the indentation string consists of whitespace only, and a fresh formatter starts at level 0.", "quantifier": "every string", "why_tests_cant": "All strings.", "anchors": ["parsel/src/util.rs: TokenStreamFormatter::with_indent"]}
{"id": "C43", "title": "Derived ToTokens prints the fields of the active constructor in order", "statement": "The tokens of a derived struct are the concatenation of its fields' tokens in declaration order; those of an enum value are the concatenation of the active variant's fields' tokens; a unit struct or variant prints nothing.", "quantifier": "every definition and value", "why_tests_cant": "All definitions and values.", "anchors": ["parsel_derive/src/to_tokens.rs"]}
{"id": "C44", "title": "Literal conversions preserve value and span", "statement": "Converting between parsel's literal types and syn's, or extracting the primitive value and wrapping it again, preserves the value and (between literal types) the span (integers passed through Lit are re-classified by sign; bytes survive a trip through syn::LitByte exactly if the token syn makes for the byte is spelled as a byte literal); equality, ordering and hashing of literals ignore spans.", "quantifier": "every literal value and span", "why_tests_cant": "All values.", "anchors": ["parsel/src/ast.rs: impl_literal!, From/TryFrom impls"]}
{"id": "C45", "title": "Parsing never panics", "statement": "Parsing any token stream whose literal tokens are valid Rust literals with any grammar returns Ok or Err (or does not return); it never panics, and with a grammar passing the termination check it returns.", "quantifier": "every grammar, every token stream", "why_tests_cant": "All grammars and inputs, of any size.", "anchors": ["parsel/src/ast.rs", "parsel_derive/src/parse.rs"]}
{"id": "C46", "title": "Collecting and extending a Punctuated keeps items, order and separators", "statement": "Collecting values into a Punctuated keeps every item in order, puts one default separator between neighbours and none at the end; collecting Pairs succeeds exactly on the pairs of some sequence and gives that sequence (so taking a sequence apart into pairs and collecting again is the identity); extending with Pairs appends, separating an unseparated last value with a default separator first; the only misuse that panics is an item after a Pair::End.", "quantifier": "every sequence of items, separators and pairs", "why_tests_cant": "All sequences.", "anchors": ["parsel/src/ast.rs: Punctuated FromIterator/Extend/IntoIterator/Deref"]}
{"id": "C47", "title": "Every lexed token knows exactly where it is in the source", "statement": "For every source text that lexes, the tokens lie in the text in order and without overlap, with only white space and comments between them; source_substring of a token's span is exactly the token's spelling (for a group, the text from its opening to its closing delimiter; for the tokens of a doc comment, the comment), and lexing always terminates.", "quantifier": "every Unicode source text, every token at every depth", "why_tests_cant": "All texts, including comments, nesting and multi-byte characters.", "anchors": ["parsel/src/util.rs: SpannedExt::source_substring, byte_range, char_range", "parsel/src/lib.rs: parse_str"]}
{"id": "C48", "title": "The published grammars decide every text and round-trip", "statement": "For each grammar published in the README, in the API documentation and in the test suite: from_str on any source text returns (it never loops or panics); and, except for the documented BoolAtEnd grammar (whose values may be unreadable), parsing the tokens or the formatted text of any value of the grammar's root type whose leaves can be written in Rust gives back that value.", "quantifier": "every published grammar, every source text, every value", "why_tests_cant": "The published tests run a handful of texts per grammar; values and texts are unbounded.", "anchors": ["README.md", "parsel/tests/parse.rs", "parsel/tests/roundtrip.rs", "parsel/src/ast.rs: documentation examples"]}
{"id": "C49", "title": "Every node of a parsed value knows exactly where it comes from", "statement": "A parsed value is a syntax tree of the tokens it was parsed from: each part, at any depth, is made of a contiguous run of tokens, parts of one node follow each other in declaration order, and printing a part prints its run. So for a value parsed from a source text (and printable), byte_range, char_range and source_substring of every node that has tokens never panic and give exactly the text from the start of the node's first token to the end of its last; parts lie inside their parents, siblings are in order (and disjoint unless they come from one doc comment), and the root covers the text up to white space and comments at its ends. A node without tokens has the call-site span.", "quantifier": "every grammar, every Unicode source text, every node at every depth", "why_tests_cant": "All grammars, texts and nodes, including nesting, multi-byte characters and comments.", "anchors": ["parsel/src/util.rs: SpannedExt", "parsel/src/ast.rs: ToTokens and Parse impls", "parsel_derive/src/parse.rs", "parsel_derive/src/to_tokens.rs"]}
{"id": "C50", "title": "The layout of formatted tokens is determined piece by piece", "statement": "With an indentation string the formatter starts a new line exactly after the opening and before the closing delimiter of a non-empty group, after a group that is followed by something, and after a comma or semicolon (spacing Alone) that is followed by something in its group; every line begins with exactly one copy of the indentation per level (starting level plus enclosing visible groups) and then a token, and ends with a token. Everywhere else there is one space, or nothing after a joint operator. The compact formatter writes the same with a space or nothing instead of line breaks. (An invisible group repeats the indentation in the middle of its line.)", "quantifier": "every token stream, indentation and starting level", "why_tests_cant": "All token streams of any nesting depth.", "anchors": ["parsel/src/util.rs: TokenStreamFormatter::write, pretty, compact, with_indent"]}
{"id": "C51", "title": "The code the derive macros generate parses and prints the fields in order", "statement": "For every struct and enum definition, running the function body that #[derive(Parse)] generates parses the fields of a struct in declaration order, wrapping a failing field's error with the path of that field, and tries the variants of an enum in order, each on a fork of the stream, keeping the error that occurs furthest; running the body that #[derive(ToTokens)] generates appends the tokens of the active constructor's fields in declaration order to the stream it is given. Names of fields, variants and of the item's generated variables never interfere, except: an enum's named field called `tokens`, an enum without variants (ToTokens), and a function or constant in scope called like a generated variable or `Err`; unions are refused.", "quantifier": "every item definition (named, tuple and unit constructors, any names, any field types), every stream", "why_tests_cant": "All item definitions and inputs; the tests of a macro see a few items.", "anchors": ["parsel_derive/src/parse.rs: expand, expand_struct, expand_enum, expand_fields, expand_variants", "parsel_derive/src/to_tokens.rs: expand, expand_struct, expand_enum, expand_variants", "parsel/src/util.rs: chain_error, try_parse_variant"]}
{"id": "C52", "title": "Every parse error says what was expected, where it was expected", "statement": "When a leaf fails, its message names what was expected (identifier, keyword, operator, kind of literal, kind of bracket, end of input) and the error points at the token found instead (a group: its opening delimiter), or, at the end of a stream, at the end of that stream with the remark 'unexpected end of input'; an integer out of range points at the literal with its sign and says whether it is too large, too small or negative. Every error of every grammar is such a message under one line per enclosing production; a whole-input parse fails otherwise only with 'unexpected token', at the first token left over.", "quantifier": "every grammar, every token stream", "why_tests_cant": "All grammars, streams and failure points.", "anchors": ["parsel/src/ast.rs: Parse impls, define_keywords!", "parsel/src/util.rs: chain_error", "parsel/src/lib.rs: parse2, parse_str"]}
{"id": "C53", "title": "Equality, order and hash of syntax trees look at the syntax only", "statement": "== on nodes is an equivalence relation; two trees are equal exactly when they are the same tree, source locations and the signs of floating-point zeros apart. Equal trees hash alike, and cmp (where a node has it) is a total order agreeing with ==: identifiers by text, Left before Right, earlier variants first, then the first field that differs. Equal trees without a negative zero print the same tokens and the same text; conversely, in a grammar that is decided by the next token, trees with the same tokens (or the same text) are equal, and from_str(to_string(v)) == v.", "quantifier": "every pair (triple) of values of every grammar", "why_tests_cant": "Pairs and triples of arbitrarily deep trees.", "anchors": ["parsel/src/ast.rs: derived and hand-written PartialEq, Eq, PartialOrd, Ord, Hash of all nodes; define_keywords!; impl_literal!"]}
{"id": "C54", "title": "Every node's Display text reads back as the node", "statement": "For every node type with a Display impl and every value that can be written down, the text of {} and of {:#} lexes to exactly the tokens the value prints, so any grammar accepts or refuses the text as it does the tokens. Hence v.to_string().parse() gives back an equal value for every grammar decided by the next token, for every literal node but infinite floats (through Lit, up to Int/Uint by sign), every identifier and every keyword; Display panics on infinite floats only. (NotEof displays as nothing, which it does not accept.)", "quantifier": "every node type, every value", "why_tests_cant": "All values of all types; literals alone range over all strings and numbers.", "anchors": ["parsel/src/ast.rs: Display impls (CustomIdent, keywords, Empty, Eof, NotEof, LitX, Lit, Either, format_ast_node users)", "parsel/src/util.rs: format_ast_node"]}
{"id": "C55", "title": "The call stack of a parse grows at most linearly with the input; so does the number of calls if one token decides, otherwise it may grow exponentially", "statement": "For every grammar that passes the termination check of C45, every parse comes to an end with at most k * (tokens + 1) calls of Parse::parse active at once, where k is a constant of the grammar; and the calls are nested at least as deeply as brackets nest in the value. If moreover one token decides (variants of an enum and alternatives of Either begin with different tokens, and nothing that may follow a repetition or an option begins with a token it would have begun to read), then the number of calls is at most k * (tokens + 1) too, for accepted and for refused input; this holds for all grammars published in the documentation and the tests but four. In general the number of calls is not linear: since alternatives are tried on forks and thrown away, the Boolean-expression parser of the README makes at least 4^d calls on `true` within d pairs of parentheses. The linear bounds also hold with the number of characters of the text in place of the number of tokens, when the input is a text.", "quantifier": "every terminating grammar, every token stream; every nesting depth", "why_tests_cant": "All inputs of all sizes: a growth rate is not a statement about any one run.", "anchors": ["parsel/src/ast.rs: Parse impls", "parsel/src/util.rs: try_parse_variant", "parsel_derive/src/parse.rs: expand_enum", "README.md: Expr, Conjunction, Term"]}
{"id": "C56", "title": "Every error of parsing a text points at the text it is about", "statement": "For every text and grammar, an error of from_str/parse_str is one of the following. (a) The text does not lex, and the error is at an opening bracket that is never closed (the innermost), at a closing bracket that does not match, or where no token begins, everything before that being fine. (b) The error selects, in the text given, the spelling of a token, an opening or a closing bracket, a whole bracketed group, a negative number from its minus sign to its last digit, or a part of a doc comment. (c) Some node was asked to read at the very end of the text, and the error points nowhere (call site). The delimiter spans of a group select its brackets. Of the errors of an enum's alternatives the one reported ends last in the text, those at the very end counting as at its beginning.", "quantifier": "every grammar, every text", "why_tests_cant": "All texts, layouts and failure points.", "anchors": ["parsel/src/lib.rs: parse_str", "parsel/src/util.rs: try_parse_variant, SpannedExt::source_substring", "parsel/src/ast.rs: Parse impls", "parsel_derive/src/parse.rs: expand_enum"]}
{"id": "C57", "title": "Trees built or edited through the API print, and read back", "statement": "Whatever history of public calls produced a tree (parsing, constructors and From/TryFrom/Default conversions of every node type, collecting and extending, taking parts out, writing through the mutable accessors, set_span, panics caught on the way), the tree is well formed: a CustomIdent is never one of its keywords, a Separated never empty, every identifier can be written. It prints unless it holds an infinite float, and for grammars decided by the next token its tokens parse to the same value and its text reads back as the same value up to locations; provided the caller puts no Rust keyword into an Ident, no non-negative Lit::Int into a Lit, and no separator at the end of a Many. Reading a part gives what was last written there; writing to a part replaces the tokens of that part and leaves all other tokens as they were; Paren/Bracket/Brace::from(x) is located where x is; set_span changes the locations of a leaf's tokens and nothing else.", "quantifier": "every history of API calls, every grammar", "why_tests_cant": "All histories, trees and paths into them.", "anchors": ["parsel/src/ast.rs: Word::new, CustomIdent::try_from, define_keywords, Maybe, Paren, Bracket, Brace, Punctuated, Separated, Any, impl_literal, Lit, LeftAssoc, RightAssoc, Either"]}
{"id": "C58", "title": "The layout of the source text does not matter", "statement": "Take a text that lexes, and write its tokens down again in any way: white space (any, including line breaks) and comments (line and nested block comments) before, between and after the tokens, as much or as little as one likes as long as no two tokens run together; a doc comment as a comment or as the attribute it stands for, and the other way round; with or without a byte order mark at the beginning. Then the new text is read as the same tokens, and every parser accepts it with the same value, up to source locations, if it accepted the first, and refuses it if it refused the first; if there are no doc comments, with the same message at the corresponding place. Every such token stream can be written (a space after each token that is not joint will do). Mere insertion of spaces where the tokens touched may change them: `1.foo` and `1. foo`, `+=` and `+ =`.", "quantifier": "every text, every layout of its tokens, every grammar", "why_tests_cant": "All texts and all of the infinitely many layouts of each.", "anchors": ["parsel/src/lib.rs: parse_str, FromStr impls", "parsel/src/ast.rs: Parse impls"]}
{"id": "C59", "title": "A grammar can be refactored without changing what it does", "statement": "Rewriting the types of a grammar by any number of the following steps, anywhere and in either direction, leaves every observable but the shape of the values and the wording of messages as it was: the same inputs are accepted, reading the same tokens; the values print the same tokens (and text); errors are at the same places; the same inputs panic or run forever. The steps: Box<T> = T; LeftAssoc<O, R> = RightAssoc<O, R> = Separated<R, O>; struct S { R, Maybe<O, Box<S>> } = Separated<R, O>; enum L { Cons(T, Box<L>), Nil } = Any<T>; Either<A, B> = an enum with variants A and B; a field that is a struct = the fields of the struct; a field Empty = no field; a variant that is an enum = the variants of the enum; consecutive variants with a common beginning = that beginning followed by an enum of the rests; any renaming. So every published grammar has an indistinguishable one whose number of calls is linear in the input. Not among the steps, each refuted by an example: a common end of variants factored out; Maybe<P, T> as a choice between P T and nothing; Separated<R, O> as R followed by Any of O R; a different order of variants.", "quantifier": "every grammar, every combination of steps (including mutually recursive types), every token stream and text", "why_tests_cant": "All pairs of grammars related by any number of steps, on all inputs.", "anchors": ["parsel/src/ast.rs: Parse and ToTokens impls of Box, Maybe, Separated, Any, LeftAssoc, RightAssoc, Either, Empty", "parsel_derive/src/parse.rs: expand_struct, expand_enum", "parsel_derive/src/to_tokens.rs: expand_struct, expand_enum", "parsel/src/util.rs: try_parse_variant", "README.md: Expr, Conjunction, Term"]}
{"id": "C60", "title": "A language can grow: variants added at the end of its enums keep old documents readable", "statement": "Let a grammar be changed by adding variants at the end of any of its enums (with any new types they need); structs and the field types of the existing variants stay, names may change. Every value of the old grammar is a value of the new one. If the new grammar is one where a token decides (C10), then whatever the old program wrote (to_tokens, and to_string in both formats) the new one reads back as the same value, and every token stream and text that the old parser accepted is accepted by the new one with the same value, apart from negative zeros of integers and operators written with other spacing than they are printed. In any grammar, if the old variants of one enum mention only unchanged types: the enum still reads whatever it read, in the same way, and all it reads in addition is read by a new variant where the old enum refused. Without the condition, a new variant may take a token that something after the enum needs; a variant added in front may take what later ones read.", "quantifier": "every grammar, every way of adding variants, every value, token stream and text", "why_tests_cant": "All pairs of grammars and all documents of the old one.", "anchors": ["parsel_derive/src/parse.rs: expand_enum", "parsel/src/util.rs: try_parse_variant", "parsel/src/ast.rs: Parse and ToTokens impls", "README.md: Value"]}
{"id": "C61", "title": "Parsel's nodes and derived types work with parts of any other type that implements Parse and ToTokens", "statement": "Let the type arguments of parsel's nodes and the field types of derived structs and enums be arbitrary implementations of Parse: any program made of the operations syn's ParseStream offers (peeking, step, fork with or without advance_to, catching errors, entering groups, calling other parsers recursively, panicking), TokenTree and TokenStream, or parsel's own types. Then what Maybe, Either, Any, Separated, Punctuated, Paren/Bracket/Brace, LeftAssoc, RightAssoc, derived structs and derived enums do is determined exactly by what the parts do (values, position after, error, and which error is reported). If each part prints what it read (for any notion of sameness of token streams that goes through concatenation and groups), so does the whole, also for recursive types and parts of different origin. If the parts always return a value or an error, and items of repetitions consume input, the whole always returns: it neither panics nor runs forever; but Any of an item that succeeds without reading anything never ends.", "quantifier": "every implementation of Parse written against syn's interface, every composition of nodes and derived types (recursive too), every stream state", "why_tests_cant": "All user-written parsers, compositions and inputs.", "anchors": ["parsel/src/ast.rs: Parse and ToTokens impls of Maybe, Paren, Bracket, Brace, Punctuated, Separated, Any, LeftAssoc, RightAssoc, Either", "parsel_derive/src/parse.rs: expand_struct, expand_enum", "parsel_derive/src/to_tokens.rs: expand_struct, expand_enum", "parsel/src/util.rs: try_parse_variant"]}
{"id": "C62", "title": "The types are the grammar: what is read is exactly what the types spell out", "statement": "Read the types as a context-free grammar: a struct is its fields one after the other, an enum any of its variants, Any any number of items, Separated and Punctuated items with separators between (and possibly after) them, Maybe nothing or prefix and rest, Either any of two, LeftAssoc and RightAssoc operands with operators between them, a keyword, operator or group itself. Every parser accepts only token streams that are spelled that way, with the value that was spelled (so the order of variants, peeking and backtracking never make up anything). A grammar in which the next token decides (C10) accepts everything that is spelled, as the value that was spelled; nothing is spelled in two ways; and two such grammars that offer the same alternatives, in whatever order and under whatever names, accept the same inputs. At the level of texts: from_str succeeds exactly if the tokens of the text spell a value and otherwise returns an error. (Apart from the negative integer zero and floating-point literals too large for f64, and for grammars in which the spacing of operators does not matter; else, for operators that are spaced.) Without the condition: something spelled may be refused, two variants may spell the same, and the order of variants counts.", "quantifier": "every grammar, every value, token stream and text", "why_tests_cant": "All members of all languages.", "anchors": ["parsel/src/ast.rs: Parse impls", "parsel_derive/src/parse.rs: expand_struct, expand_enum", "parsel/src/util.rs: try_parse_variant", "README.md"]}
{"id": "C63", "title": "Errors are never late: everything before the place of an error is the beginning of a valid document", "statement": "Let every type of a grammar have values. Whenever parsing fails, there is a place in the input that the error is about: a node wanted something else there (C52), or nobody asked for the token there. The tokens before that place, with any groups open there closed again, can be completed to a document that the types spell out (C62), and if the next token decides (C10), to one that the parser accepts; so the user's mistake is never before that place. The exception, stated as a case of its own: tokens left over in a group are hidden by an error after the group. The error may be early (Any gives up an item that fails half way), and a type without values makes it late.", "quantifier": "every grammar whose types have values, every refused token stream and text", "why_tests_cant": "All refused inputs, and for each the existence of a completion.", "anchors": ["parsel/src/ast.rs: Parse impls", "parsel_derive/src/parse.rs: expand_struct, expand_enum", "parsel/src/util.rs: try_parse_variant, chain_error", "parsel/src/lib.rs: parse2, parse_str"]}
{"id": "C64", "title": "Syntax trees can be used as keys of maps and sets", "statement": "Equal trees (C53: locations and signs of floating-point zeros do not count) make the same sequence of calls to any Hasher. Two trees of one type that are not equal feed it different bytes, and neither byte sequence begins with the other (so this holds for tuples of trees as well), on 64-bit machines of either byte order, unless they contain subnormal floats. Hence a HashMap with trees of any type as keys, with any hasher, after any history of insertions and removals, holds under a tree what was last put there, wherever in whatever source the two trees come from. The same is true of a BTreeMap for the types that have Ord (identifiers, keywords, markers, literals, Either, and derived types made of these), which lists its keys in ascending order, each once. Looking up by a borrowed form (str and String for LitStr, [u8] and Vec<u8> for LitByteStr, the value of any other literal, a slice or Vec of nodes for Any) finds the entry of the corresponding key.", "quantifier": "every type of every grammar, every pair of values, every hasher, every history", "why_tests_cant": "All pairs of trees, hash functions and histories.", "anchors": ["parsel/src/ast.rs: derived and hand-written Hash and Borrow impls of all nodes; define_keywords!; impl_literal!"]}
{"id": "C65", "title": "The Debug texts of syntax trees tell everything but what is documented to be invisible", "statement": "{:?} and {:#?} of two trees of one type are the same exactly if the trees are the same (spans aside) and their identifiers and literals have the same byte offsets, provided that no value of one side of an Either shows like a value of the other side and no operand of an association like an association (Either and lone operands show only their contents, Box too); without that proviso trees that are not equal may show alike. Both forms tell the same, also across types; {:?} is always one line. Trees equal by == may show differently, since identifiers and literals show where they stand.", "quantifier": "every type of every grammar, every pair of values, both formats, all names of tokens and offsets", "why_tests_cant": "All pairs of trees.", "anchors": ["parsel/src/ast.rs: Debug impls of all nodes; define_keywords!; impl_literal!"]}
{"id": "C66", "title": "Trees are linear in the text: no input makes a tree larger than a constant times its length", "statement": "For every grammar that is neither left recursive nor repeats something that may be empty (the check of C18) there is a constant, depending on the grammar only, such that every value that the types spell out, so every value ever parsed, has at most that many nodes for each token, and for each character of the text, of the input (and at most that constant for the empty input); so parsing is no memory bomb whatever the input. The depth of the tree is linear too, and no better: a text without any brackets may give a tree as deep as it is long (LeftAssoc), which is how deep dropping, cloning or printing it recurses. The other way, the tokens of a value are at most a constant, depending on the operators of the grammar, times its nodes. Without the check, nothing at all may spell trees of any size.", "quantifier": "every grammar passing the check, every value, token stream and text", "why_tests_cant": "A constant for all inputs of unbounded size.", "anchors": ["parsel/src/ast.rs: Parse impls", "parsel_derive/src/parse.rs: expand_struct, expand_enum", "parsel/src/lib.rs: parse2, parse_str"]}
{"id": "C67", "title": "Trees are read back wherever they stand: before other tokens, and one after another", "statement": "A Parse impl written by hand calls input.parse::<T>() in the middle of a stream, and relies on it to read one T and leave the rest. For every grammar and every set of beginnings of tokens that may follow for which a decidable check succeeds (no choice, option or repetition that may come last is about to read such a beginning; with nothing but the end of the input it is the check of C10): a printed value of the type T, followed by anything that begins so, is read as that value, and exactly what follows is left in the stream, whatever the stream has read before; the same holds for every spelling of a value, so for every document accepted as a whole, if the spacing of operators is of no matter to the grammar. So values of several types are read back one by one, in any order, when they are written one after another, as are documents. Without the check a value that is read back alone may swallow what follows (Any<Ident> before an identifier).", "quantifier": "every grammar and set of beginnings passing the check, every value, document, following stream, and sequence of values or documents", "why_tests_cant": "The values, the tokens before and after them and the sequences are unbounded.", "anchors": ["parsel/src/ast.rs: Parse and ToTokens impls", "parsel_derive/src/parse.rs: expand_struct, expand_enum", "parsel/src/lib.rs: Parse, ToTokens (re-exports of syn and quote)"]}
{"id": "C68", "title": "Documents written one below the other are a document of many", "statement": "If the grammar Many<T> passes the check of C10 and spacing of operators is of no matter to it, then texts that are each read as a T, by from_str, are read as a Many<T> when they are written one below another (each followed by a line break), as exactly those trees in that order, up to source locations; their tokens are those of the texts, one after another. The texts are laid out as in C58 (comments and doc comments included: a comment at the end of the last line of a text does not swallow the next text), and contain no -0 (C09), also not across the join, and no float out of range. The same holds for token streams without any condition on layout, and for token streams of T's with those of P's between them, read as Punctuated<T, P> (the last P may be missing; P not NotEof) or as Separated<T, P>. And trees written by to_string, by {:#} or by a formatter with any indentation and at any level, on lines of their own, are read back as the list of the trees, for every checked grammar and without a condition on spacing. Without the check joining may merge documents (`1` and `-1` under LeftAssoc<Token![-], LitInt> become the one document 1 - 1), and in no case does it keep errors: a refused text may be completed by the next one.", "quantifier": "every checked grammar and every list of accepted documents of any length", "why_tests_cant": "Documents, their layout and their number are unbounded.", "anchors": ["parsel/src/ast.rs: Many, Punctuated, Parse impls", "parsel_derive/src/parse.rs: expand_struct, expand_enum", "parsel/src/lib.rs: parse_str"]}
