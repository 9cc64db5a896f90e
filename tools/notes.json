{
 "C04": {
  "note": "The alias theorem shows canonicity fails only for the 9-byte wrap, exactly as stated."
 },
 "C13": {
  "note": "safe_transitive_refuted: the relation is not transitive."
 },
 "C20": {
  "note": "The characterisation is exact; deserialize_never_panics_refuted gives a 10-byte panicking input for a one-field struct."
 },
 "C21": {
  "note": "Exact characterisation; deserialize_always_terminates_refuted gives a 1-byte diverging input."
 },
 "C22": {
  "note": "One theorem per place of the cut, and a concrete accepted truncated message."
 },
 "C36": {
  "note": "Unicode tables are a parameter assumed to agree with ASCII on ASCII; style-insensitivity is stated for ASCII words, the rest for all identifiers."
 },
 "C37": {
  "note": "ASCII names; names_distinct_refuted shows the condition on words is needed."
 },
 "C47": {
  "note": "ASCII names; rust_names_legal_refuted exhibits r#self."
 },
 "C52": {
  "note": "ts_choice_case_refuted exhibits the wrong case being selected for a field named to_string."
 },
 "C38": {
  "note": "ASCII names. The structure theorem holds for any line wrapping; the one with comments assumes of the textwrap library that it breaks the schema's own paragraphs only at single spaces. Three refutations show the conditions on names are needed."
 },
 "C39": {
  "note": "Same conditions as C38 (ASCII names, paragraphs broken only at single spaces)."
 },
 "C26": {
  "note": "ts_strings refutation: a string starting with a byte order mark loses it in TypeScript."
 },
 "C34": {
  "note": "Exact characterisation; parser_does_not_panic_refuted exhibits a source file on which the program crashes."
 },
 "C46": {
  "note": "Exact; the refutation shows $1 is accepted as an identifier."
 },
 "C31": {
  "note": "Exact. indices_need_not_be_consecutive_refuted: the README's claim about gaps is false of the code (a gap must be marked as deleted)."
 },
 "C32": {
  "note": "The cycle check runs with fuel; validation_always_returns shows the fuel never runs out and no unwrap panics."
 },
 "C33": {
  "note": "Existence, uniqueness and well-formedness of the type tree of each declaration; the round trip is restated for declared types."
 },
 "C43": {
  "note": "Namespaces compare as identifiers do (same_ns)."
 },
 "C44": {
  "note": "Hypotheses are what the loader guarantees: pairwise different namespaces made of Unicode scalar values."
 },
 "C57": {
  "note": "Names restricted to ASCII with words starting with letters (good_file). Exact condition for TypeScript; ts_type_paths_resolve_refuted: a file foo.t with struct Foo and a reference to it generates TypeScript that does not resolve."
 },
 "C58": {
  "note": "rust_locals_legal is an exact characterisation; the _refuted theorems exhibit `_r#type`, a struct DataView and a file io.t."
 },
 "C40": {
  "note": "Operations of the file system succeed or fail as an arbitrary function says; printing to the standard output is taken to succeed. format_then_check_succeeds needs printable names and comments that wrap cleanly (C38) and distinct namespaces (C42)."
 },
 "C41": {
  "note": "The file system is an arbitrary record of functions with finitely many entries. Exactness needs distinct namespaces (C42); without them the loaded files are still reached ones and their imports still resolve."
 },
 "C42": {
  "note": "Two refutations show what goes wrong instead: a file that does not parse is accepted, and a type is silently taken from the wrong file."
 },
 "C59": {
  "note": "Combines C41, C33, C08, C25 and C26 for the command as a whole."
 },
 "C60": {
  "note": "Rust only. The syntax trees of RustGen.v are what the interpreter of RustSem.v runs; rust_code prints them."
 },
 "C62": {
  "note": "FFuel (no number of rounds suffices) stands for an endless loop."
 },
 "C68": {
  "note": "ts_clear_names is what typical does not check (C57, C58): C71 gives a simple sufficient condition. 'rounds' and 'depth' bound the interpreter; any large enough value works."
 },
 "C70": {
  "note": "ts_faithful excludes strings that start with U+FEFF (C26) and [Unit] longer than JavaScript arrays."
 },
 "C72": {
  "note": "ts_result_types_resolve_refuted: if a.t and a/foo.t both declare Foo, the annotation of A.Foo.deserialize means the type of a/foo.t, as namespaces merge; generated_ts_annotations_resolve excludes that."
 },
 "C73": {
  "note": "ts_values_with_more_properties_refuted: without exactness a value may have the properties of two cases, which TypeScript accepts; serialize takes the first."
 },
 "C74": {
  "note": "every_error_is_shown_refuted: an unexpected symbol at the start of a line is shown with an empty listing. Coloured listings: no panic is proved, the text is not specified."
 },
 "C76": {
  "note": "Only the first error is shown to be right: later ones depend on where the parser resumes."
 },
 "C77": {
  "note": "Of a file with syntax errors, at least one is shown (C76 says what it is about). Namespace conflicts: C42. eprintln! is taken to succeed."
 },
 "C79": {
  "note": "Texts of operating system errors, colours and grapheme clusters are arguments; palette_ok (colours start with an escape character) is used for the last sentence only."
 },
 "C80": {
  "note": "The trees of the prelude functions, their printed text and an interpreter with typed integers. machine/rbytes: arguments are in the range of their machine types and readers deliver bytes (0..255). depth 2 is the nesting of calls among these functions. The interpreted generated code (C60 to C66) calls the models, which by this property is the same."
 },
 "C81": {
  "note": "RustGrammar.v is a specification of tokens and grammar written from the Rust reference, for the part of Rust the declarations use; layout flags of trees (inline, blank lines) are not grammar. legal_names is the exact condition on generated names; usual_names_are_legal gives it in terms of the names in schemas. The constant text at the top is covered by C80."
 },
 "C82": {
  "note": "TsGrammar.v is a specification of tokens (longest match, restricted productions: a line break after return, throw or break ends the statement) and of the grammar, written from ECMA-262, for the part of TypeScript the file uses; layout flags of trees are not grammar. legal_ts_names is the condition on generated names; usual_ts_names_are_legal: names that start with a letter. The comments at the top are given literally (ts_header)."
 },
 "C83": {
  "note": "clap is a parameter whose documented contract (reads_command_lines, CliSpec.v) is a hypothesis; Examples19 has a library that meets it. cli (the declared arguments) is modelled as data, so that required arguments justify the unwraps in entry. no_lookalikes: no text with other characters than ASCII becomes a name of a shell in lower case. The contents of completion scripts and help texts are not modelled. Finding: the error about an unknown shell is the only one without the [Error] mark."
 },
 "C84": {
  "note": "RustTyping.v is a specification of typing for the fragment of RustSyntax.v, written from the Rust reference: declarative rules (types, coercions, default binding modes, exhaustiveness, auto-(de)reference of receivers, uniqueness of items, headings of trait functions, well-founded containment). The judgements thread the variables through each expression and statement in the order of evaluation and record what has been moved (whole variables and fields), loops give back what they began with, and the arms of a match agree. It covers the declarations of the schemas; the functions at the top of the file are checked by RustPreludeTyping.v (Properties23), which also has the loans of a reader that fill_buf makes, unsafe, and the constant mistakes that rustc denies (literals out of range, shifts by too many bits, indices outside of arrays). Not covered: lifetimes and the borrow checker for the code of the schemas, closure kinds, that inference finds the types. Hypothesis std_is_free, shown necessary by no_types_beside_a_module_std; Examples20: every_generated_rust_is_well_typed_refuted (foo.t and foo/std.t are accepted and the generated file does not compile). Examples20 also shows programs that the rules reject."
 },
 "C85": {
  "note": "Rules about scopes, definite assignment, control flow, arity and duplicate names; types of expressions are not part of it (C72 and C73 are about types of values). The specification TsScoping.v rejects nine kinds of wrong functions (Examples22.v)."
 },
 "C86": {
  "note": "Weights and bounds are defined in Footprint.v without the decoders. The Rust bound is proved of the decoder (decoded_messages_are_linear), of a value inside a larger message (decoded_parts_are_linear) and of the code over its buffered reader (read_messages_are_linear); capacity reserved in advance is C20's subject, not part of the size. ts_messages_are_polynomial bounds TypeScript; ts_messages_can_be_quadratic, ts_unit_arrays_are_large and the two refuted theorems show why no linear bound holds there or for units."
 },
 "C87": {
  "note": "The weight is that of C86 (Footprint.v); with it the two properties bound each other. forwarded_messages_never_grow_refuted shows a message of two bytes that takes three when it is written anew."
 },
 "C88": {
  "note": "The value read and the value sent are compared as trees; C09 gives the round trip, the typing of decoded values gives that nothing is lost on the way from the In type to the Out type. every_message_can_be_forwarded_refuted shows why the types without asymmetric fields are singled out."
 },
 "C89": {
  "note": "The relation `relay` of RelayFacts.v is the specification of one program, `relays` of a chain. relayed_strings_are_unchanged_refuted shows the loss of U+FEFF; the two languages may see different messages in the bytes the first one gets (C29), so the claim starts from what the first one saw."
 }
}