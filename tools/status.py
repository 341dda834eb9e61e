# exec'd by gen_manifest.py
notes.update({
 "C03":"Every grammar is lawful (lawful_pty); a failed enum/Either leaves the stream untouched; absent Maybe / end of Any / end of Separated leave the stream after the last accepted item.",
 "C05":"The README promise is refuted for alternatives that run out of input at top level (C05_furthest_refuted); proved for sources where all alternatives fail at a place of the source (C05_furthest_place, C05_errors_point_at_places).",
 "C11":"Leftovers inside groups are recorded, not backtracked over, and make the whole parse fail (C11_leftovers_*).",
 "C20":"The converse (everything the right-recursive grammar accepts) is refuted by C20_converse_refuted and is not part of the property.",
 "C26":"'Never non-negative' is refuted for the literal -0 (C26_parsed_int_negative_refuted); C26_parsed_int_not_positive and C26_classified_by_sign are the exact facts.",
 "C09":"Without the proviso the claim is refuted (C09_spacing_refuted, C09_minus_zero_refuted); for ll1 grammars it holds with no proviso (C09_reparse_exact).",
 "C38":"Same provisos as C09, at the level of text; hypotheses on the Unicode tables are sane_tables.",
 "C29":"NaN cannot be written as a literal: the model type f64 has no NaN because parsing never produces one.",
 "C48":"20 grammars pass the checks of C17 and C10; the 21st (BoolAtEnd in the docs of Maybe) has values whose tokens do not parse (C48_bool_at_end_refuted). PropUsage.v also runs every README/doc/test example through the model.",
 "C49":"Spans follow proc_macro2's fallback and quote's join_spans; the hypothesis print v <> None excludes infinite floats, whose to_tokens panics (C29).",
 "C44":"Bytes depend on the token syn::LitByte::new makes; with the u8-suffixed token of syn 2.0.66 the way back panics (C44_bytes_via_u8_token_refuted).",
 "C53":"Without the zero proviso 'equal trees print alike' is false: 0.0 == -0.0 (C53_minus_zero_refuted). The hypothesis proper (one location per operator character, literals of their type) holds of every value of a type (C53_values_are_proper).",
 "C54":"Display is modelled by type (Display.v); for the types that go through format_ast_node it is to_string (C38). NotEof is the exception (C54_not_eof_refuted). Width and precision flags are not modelled.",
 "C55":"Calls of Parse::parse are counted, not time. The number of calls is linear for grammars that pass the check predictive (C55_calls_linear); for the README's Boolean grammar that is refuted (C55_linear_calls_refuted).",
 "C56":"Case (c) is a finding: at the very end of the input there is no location (C05_furthest_refuted). Within a doc comment all tokens share the comment's span, so an error about one of them points at the comment or at its first or last character.",
 "C57":"A history is a derivation of obtainable (PropBuild.v), one rule per API function. The three obligations of the caller are necessary: C57_keyword_ident_refuted, C57_positive_int_refuted, C57_many_separator_refuted.",
 "C58":"The layouts are the derivations of laid (Laid.v); may_follow is a sufficient condition for two tokens not to run together (it excludes a dot, a quote or a pound sign directly after a literal, and quotes and pound signs directly after a word). For error messages the tokens must not contain a pound sign, which excludes doc comments; for those C58_doc_comment_errors_refuted.",
 "C40":"Corresponding places are defined by place (SimSpan.v), order by in_order (PropSame.v). Without the order the message may differ (C40_messages_refuted).",
 "C59":"The steps are step_type, step_seq and step_alts at the head of Refactor.v; same_type/same_seq/same_alts close them under congruence, on both sides, and refactoring under recursion. Texts of messages name types and fields and so may differ.",
 "C60":"upgrade and settled (PropExtend.v) are the conditions on the two grammars; C60_unchecked_refuted and C60_in_front_refuted show that they are needed.",
 "C61":"An implementation is impl (Open.v); written/program describe the programs that C61_any_program_implements covers (no state outside the stream, a fork is advanced to only on its own stream). The values of the fields of one derived type share a type V, which for given field types is their sum.",
 "C62":"Language (spells) is an inductive relation of its own in Lang.v; only literal leaves refer to the literal parsers (C25 to C29 say what those do). C62_parsed_is_spelled holds for every grammar; the converse needs ll1 and tame tokens (no integer -0, no infinite float), and spacing_free or spaced operators; C62_unchecked_refuted, C62_ambiguous_refuted and C62_order_refuted show what happens without.",
 "C63":"The place of an error is found (PropPrefix.v), the documents beginning alike begins_like (Prefix.v). The hypothesis inhabited (every type has a value; operators contain no quote) is checked by computation; C63_early_refuted, C63_hidden_refuted and C63_empty_enum_refuted mark the limits.",
 "C64":"Hashing follows the types (hv, HashCalls.v); HashMap is not in /repo, its model is the small table at the head of PropKeys.v. For subnormal doubles ordered-float's hash drops a bit: C64_subnormal_refuted (such keys work, they just collide).",
 "C65":"dbg (Debug.v) says what each impl hands to core::fmt, show what the builders write. Left open (record shown, with the conditions sane): offsets of spans, names of syn's token types, digits of floats. C65_obtainable_trees: every tree made or parsed through the API meets the conditions on values.",
 "C66":"Nodes are those of the values of Grammar.v (a leaf, struct, variant, list, group, operator application each one; Box none), not bytes of memory; texts inside identifiers and literals are not counted (they are slices of the input).",
 "C67":"The check ll1_before is that of C10 with the beginnings F of what may follow in place of the end of the input (C67_end_of_input: by computation the same for [HEnd]); its tables are not trusted. Spellings are those of C62, so -0 (C09) and floats out of range are excluded by tame, and spacing_free as in C62; streams with invisible groups are not covered by the theorems about documents (those about printed values cover them after the value).",
 "C68":"Texts are those with a layout derivation (laid, C58); texts like `1.foo`, whose tokens touch where laid does not allow it, are not covered by C68_joined_texts (C68_joined_tokens covers their tokens). many gives the Punctuated the parser builds: NotEof (printing nothing) between items, none after the last.",
})
