# Formal model of stepchowfun/typical in Rocq (Coq 8.16.1)

This file was written before the proofs and is kept current. `MANIFEST.json` maps each property of
`properties.jsonl` to theorem names.

## What is modelled

`typical` is a compiler from schemas to Rust / TypeScript / (JavaScript) code. The *generated* code
is a fixed run-time prelude (string literals in `src/generate_rust.rs` and
`src/generate_typescript.rs`) plus, per declaration, code emitted by structural recursion over the
type. A generated program is modelled as an *interpreter* over the type: the Coq function that
encodes/decodes a value of type `t` performs exactly the steps that the code emitted for `t`
performs. For Rust this is not taken on trust: `RustGen` models the generator itself, producing the
syntax trees whose printed text is the generated file, `RustSem` interprets such trees, and C60-C64
prove that the interpreted program does what the model of the codec does, for every accepted schema.
Likewise for TypeScript: `TsGen` and `TsText` model the generator, `TsSem` interprets the trees, the
functions of the prelude included, and C67-C73 are about the interpreted program.

| part | source | model (definitions) | independent specification | proofs |
|---|---|---|---|---|
| Rust run-time prelude (zigzag, varints, headers, skip, finish) | `generate_rust.rs` 125-400 | `RustPrim`; `RustPrelude`, `RustPreludeSem` (trees and interpreter) | `SpecPrim` | `RustPrimFacts*`, `PrimExtra`, `RustPreludeFacts*` |
| generated Rust: atlas, size, serialize, deserialize, `From<Out> for In` | `generate_rust.rs` 500-2400 | `Types`, `RustCodec` | `Spec` (README "Binary encoding"), `Evolution` | `TypesFacts`, `DecodeFacts`, `SerializeFacts`, `EvolutionFacts*`, `FieldsFacts`, `VisitsFacts`, `TruncFacts*` |
| Rust generator: the emitted text, as syntax trees with a printer | `generate_rust.rs` 1-2400 | `RustSyntax`, `RustGen`, `RustText` | `/repo/test_data/types.rs` (`tools/golden.py rust`: same text) | `CodeFacts` |
| meaning of the emitted Rust: an interpreter for those trees | the Rust reference, `std` | `RustSem` | `RustValue` (values of the generated types), `RustSpec` (calls of public functions), `RustTypes` (values of Rust types) | `RustEval`, `RustAtlasFacts`, `RustSerFacts`, `RustReadFacts`, `RustDeserFacts`, `RustFromFacts`, `RustLinkFacts`, `RustTop`, `RustTypesFacts` |
| buffered readers and failing writers | `std::io` contract | `Chunks`, `Writer` | statements of C23, C24 | `ChunksFacts`, `WriterFacts` |
| UTF-8, `TextDecoder` | std / WHATWG | `Utf8` | `Utf8` (`str_ok`) | `Utf8Facts` |
| TypeScript prelude and generated TS | `generate_typescript.rs` | `TsPrim`, `TsCodec`, `TsNames` | `TsSpec`, `TsItems` | `TsPrimFacts`, `TsSerFacts`, `TsDecFacts*`, `TsTyped`, `TsTop` |
| TypeScript generator: the emitted text, as syntax trees with a printer | `generate_typescript.rs` 1-2300 | `TsSyntax`, `TsGen`, `TsText` | `/repo/test_data/types.ts` (`tools/golden.py ts`: same text) | `TsLinkFacts`, `TsClear` |
| meaning of the emitted TypeScript: an interpreter for those trees, prelude included | ECMAScript, the TypeScript handbook | `TsSem` | `TsValue` (messages as JavaScript values), `TsApi` (calls of exported functions), `TsTypes` (values of TypeScript types) | `TsEval`, `TsPreludeFacts*`, `TsSimBase`, `TsLoops`, `TsAtlasFacts*`, `TsSerSim*`, `TsDeserSim*`, `TsProgram`, `TsTypesFacts`, `TsOutFacts` |
| identifiers and emitted names | `identifier.rs`, `write_identifier` | `Identifier`, `TsNames` | `IdentSpec` | `IdentFacts`, `NamesFacts` |
| tokenizer | `tokenizer.rs`, `token.rs` | `Tokenizer` | `TokenSpec` | `TokenFacts*` |
| parser | `parser.rs` | `Schema`, `Parser` | `ParseSpec` (grammar) | `ParserFacts*` |
| formatter | `schema.rs` (`Display`) | `Printer` | `PrintSpec` | `PrinterFacts*` |
| validator incl. cycle check | `validator.rs` | `Validator` | `ValidSpec` | `ValidatorFacts`, `CycleFacts`, `TreeFacts`, `DefectFacts` |
| module tree, relative namespaces | `schema.rs` (`relativize_namespace`), `generate_*.rs` (`insert_schema`, `write_type`) | `ModuleTree` | `ModuleSpec` | `ModuleFacts`, `CodeFacts` |
| schema loader | `schema_loader.rs` | `Loader` | `LoadSpec` | `LoadFacts` |
| command driver (generate / format) | `main.rs`, `format.rs` | `Commands` | `CommandSpec` | `CommandFacts`, `PlainFiles` |
| command line, exit status, shell names | `main.rs` (`cli`, `entry`, `main`, `shell_completion`) | `Cli` | `CliSpec` | `CliFacts` |

Model files contain definitions only, each citing file and lines. Proofs are in `*Facts.v`.
`Properties*.v` contain only the property theorems, each closed with `exact`, followed by
`Print Assumptions`; `Examples*.v` hold the non-vacuity examples.

## Modelling conventions

* bytes are `N` (< 256), byte strings `list N`; `u64`/`usize` are `N` with explicit `mod 2^64`
  (64-bit target); `i64` is `Z` in range, with two's-complement conversion written out; `f64` is
  its 64-bit pattern.
* A Rust reader is the list of bytes it will still deliver; `C23` justifies it by a refinement from
  chunked `BufRead`s. Results are `Ok value rest | Err kind | Panic | Diverge`; a Rust panic is
  `Panic`, an infinite loop is `Diverge`. Fuel is the input length and the theorems show it never
  runs out.
* `ty` is a finite tree: `validator.rs` rejects type cycles, and `C33` shows that every validated
  schema expands to such a tree meeting the hypotheses (`ty_wf`).
* Unicode tables (`is_alphabetic`, `to_lowercase`, ...), `textwrap::fill` and the file system are
  explicit function arguments, with hypotheses visible in each statement; nothing is an axiom.

## Properties: what is modelled and how it is proved

* C01-C03 `serialize_varint`, `deserialize_varint`, `varint_size_from_value` bit for bit; case split
  in the nine classes, shifts/masks turned into div/mod, `lia`. README layout as separate spec.
* C04 case analysis on the first byte; aliases characterised exactly.
* C05 shifts/xor on 64-bit words; proved equal to arithmetic spec.
* C06 both primitives equal on the same domain.
* C07 header reader/writer.
* C08, C09 induction on types/values: atlas size, writer = README encoding.
* C10-C14 one central theorem: for writer type A and reader type B related by the directional
  compatibility relation, `decode_B (encode_A v) = Ok (migrate A B v)`; round trip and injectivity
  are corollaries; unsafe changes are shown to have failing messages.
* C15-C22 invariants of the decoder on arbitrary bytes (induction on type and on input length),
  `_refuted` witnesses by `vm_compute`.
* C23 refinement between chunked readers and flat readers for every reader operation, lifted
  through the decoder.
* C24 writers that fail after k bytes.
* C25-C29 TypeScript model on (buffer, offset, length) views.
* C30-C33 validator against a declarative definition of well-formed schemas; graph cycles.
* C34, C35 parser over arbitrary token lists, with explicit panic outcome.
* C36, C37, C46, C47 identifiers.
* C38, C39 formatter against parser, on tokens and (where feasible) text.
* C40 driver as a trace of file-system operations with failing writes.
* C41, C42 loader over an abstract file system.
* C43, C44 namespaces and module tree.
* C45 tokenizer on character lists.
* C48 UTF-8.

* C49 composition of three safe changes. C50 corollaries of the layout. C51 a counterexample.
* C52 property access on JavaScript objects, prototype chain included. C53, C54 as C17/C18 for TS.
* C55-C58 names, paths and scopes of the generated modules. C56 errors = defects, both directions.
* C59 composition of loader, validator, tree and codec.
* C60-C64 the generated Rust program, run by the interpreter, refines the codec model: mutual
  induction on values (atlas, serialize, from) and on types with an inner induction on the input
  (deserialize), after linking (every path in the program leads to the right declaration). The
  deserializer correspondence is total: panics and endless loops agree as well.
* C65 a typing relation read off the generated items; both inclusions by induction, and injectivity.
* C66 names in loaded schemas come from identifier tokens and file paths (induction on the grammar of C35), so what is loaded is `accepted`; then C60–C65 apply to the text written (C59).
* C67 case analysis on the generator; absence of panics from C44/C57 facts.
* C68-C70 the generated TypeScript program, run by the interpreter, refines the codec model `TsCodec`:
  the functions of the prelude are verified as interpreted code; mutual induction on values (atlas,
  serialize) and on types with an inner induction on the view (deserialize), over a heap of arrays
  and buffers of which only `dataView64`'s buffer may change. "enough rounds and depth" is existential,
  and any larger number works.
* C71 composition with loading and the command, as C66.
* C72, C73 a relation `ts_has` between the emitted type declarations and JavaScript values, by the
  handbook's name lookup; each inclusion by induction. The converse of C72 is not claimed.
* C74 `Report.v` (`error.rs`, `error_merger.rs`, `count.rs`, `format.rs`) against `ReportSpec.v`, which
  says which lines and which bytes of them are marked; induction over the lines.
* C75 `Located.v`, the tokenizer with ranges and messages, against the relation `faults` of
  `LexErrSpec.v`; it also erases to the tokenizer of C28.
* C76 `Located.v`, the parser with ranges and messages, against `LocatedSpec.v`; it erases to the
  parser of C33. For the advice: whenever the parser is stuck, what was consumed is the start of a
  grammatical token sequence, and the new tokens are written after an empty line.
* C77-C79 `Reporting.v`, the loader, validator and commands with messages, listings and the standard
  error output, against `ReportingSpec.v`; an invariant of the loading loop beside the one of C40,
  erasure to `Loader.v`, `Validator.v` and `Commands.v` (which needs that every range is listable,
  C74 and C76), and an invariant of runs (`fine`).
* C80 `RustPrelude.v`, the trees of the helper functions with a printer (the text is compared with
  `RustText.v` by computation), and `RustPreludeSem.v`, an interpreter that knows the widths of
  integers; each function is run symbolically, loops by induction on rounds, and the results are those
  of `RustPrim.v`, `Chunks.v` and `Writer.v`, which C01-C07 and C23 relate to `SpecPrim.v`.
* C81 `RustGrammar.v`, a specification of Rust's tokens and of the grammar of the part of Rust that the
  declarations use (precedences, where struct literals may stand, statements that start with blocks).
  By induction on trees the text of each kind of tree cuts into tokens that the grammar reads as the
  tree; the hypotheses (names are identifiers, paths are not empty) follow from `accepted` and
  `legal_names` for what `RustGen.v` generates.
* C82 `TsGrammar.v`, the same for TypeScript, and for the whole file, with the functions and constants at
  its top; proved in the same way (`TsGrammarFacts*.v`).
* C83 `Cli.v`, on top of `Reporting.v`. The library that reads the command line is a function argument with its
  documented contract as a hypothesis (`reads_command_lines`); the declared arguments are data. Proved by
  computing what `entry` does with what the contract says is present (`CliFacts.v`).
* C84 `RustTyping.v`, a specification of typing for the fragment of `RustSyntax.v` (declarative rules: places,
  what each expression moves out of the variables, moves out of references, binding modes of patterns, exhaustive matches, coercions of arguments, unique items,
  functions that traits ask for), and of finite sizes of types. A derivation is built for each generated function
  by induction on field types and lists of fields (`RustTypingFacts*.v`); names are resolved with the facts of
  `RustLinkFacts.v`. The functions at the top have their own rules
  (`RustPreludeTyping.v`, with loans of readers, `unsafe`, constant mistakes that the compiler rejects); a derivation for each of
  them (`RustPreludeTypingFacts.v`). Not covered: lifetimes and borrows in the code for the schemas, the `use` lines.
* C85 `TsScoping.v`, a specification of scopes, declarations, definite assignment, control flow and arity for the fragment of
  `TsSyntax.v`, as a relation between what is known of the variables before and after each statement. Derivations are built by
  induction on types and lists of fields (`TsScopingFacts*.v`); functions are found with the facts of `TsLinkFacts.v`. The
  functions and constants at the top are included. Types of expressions are not part of it.
* C86 `Footprint.v`, the size of a message, a constant of the type and a polynomial for TypeScript. The Rust bound is an invariant
  of the decoder's loops in additive form (size of what was made + c * bytes left <= c * bytes given), by induction on the type.
  The TypeScript bound counts rounds of the loops. The quadratic family is run symbolically for every n.
* C87 by induction on the message, over the documented format, then C09 and C25 for the two writers and C86 for forwarding.
* C88 from C09 (round trip), the typing of decoded values and C86/C87 for the length; the asymmetric case is a counterexample.
* C89 by induction on the chain: each program gets the bytes of `x` and sends those of `x` or of `x` with canonical NaNs (C25, C26, C29, C88).

## Trusted base

* Coq's kernel (8.16.1). Some examples and the first theorem of C80 use `vm_compute`, so the virtual machine's conversion is
  trusted as part of the kernel; `native_compute` is not used.
* `Print Assumptions` says "Closed under the global context" for every theorem of `MANIFEST.json`
  (each `Properties*.v` ends with the `Print Assumptions` commands): no axioms, not even from the
  standard library. (A listing of everything in scope also shows `Coq.ssr.ssrunder`'s module-type
  fields `Under_rel...`, which belong to the standard library and which no theorem uses.)
* The reading of the source documented by the citing comments: every definition of a model file
  names the file and the lines it models, and says what it leaves out.
* Assumed behaviour of what the code calls and the model does not contain:
  - `std::io`: `read_exact`, `read_to_end`, `take`, `fill_buf`, `consume`, `write_all` behave as their
    default implementations (`Chunks.v`, `Writer.v`); a `BufRead` yields no empty buffer before its
    end (or else means the end).
  - memory suffices, except that `reserve_exact` above a limit `lim <= isize::MAX` panics (C20).
    `usize` arithmetic on sizes is over unbounded `N`; the theorems about values carry
    `size v t < 2^60` (Rust) or `< 2^53` (TypeScript) where the machine could differ.
  - JavaScript: numbers are exact integers up to 2^53, BigInt operations are exact, `DataView`,
    `TextEncoder`/`TextDecoder`, `ArrayBuffer` as in their specifications; property lookup falls
    through to `Object.prototype` (C52).
  - Unicode character tables (`is_alphabetic`, `to_lowercase`, ...), `textwrap::fill`,
    `Path::file_stem`, canonicalisation and the file system are *function arguments* with hypotheses
    visible in the statements.

## Not modelled

* The inside of `clap` (C83 assumes its contract), completion scripts, help texts. Error messages and source ranges are modelled
  separately (`Report.v`, `Located.v`, `Reporting.v`), with proofs that they agree with the models
  without them. Colours are a function argument (`palette`), as are grapheme clusters and the texts of
  errors of the operating system.
* `assertions.rs` (test helpers) and the JavaScript output of `tsc`, which is not part of the program.
* The JSON-free rest of `main.rs` (logging, locking of standard output).
* That `rustc` accepts the generated Rust file: C84 covers the typing rules, not the borrow
  checker (except for the functions at the top) (C58 has a counterexample, a field named like a keyword). C81 proves that the text of the declarations reads, by
  the grammar of `RustGrammar.v`, as the tree that is interpreted; not that it reads as no other tree,
  and nothing about the grammar of the constant text at the top. The printed text is compared with `/repo/test_data/types.rs` by `tools/golden.py`. The
  functions of the constant prelude (varints, headers, `skip`, `finish`) are called by the
  interpreter `RustSem` as their models in `RustPrim.v`/`Chunks.v`/`Writer.v`; C80 proves that their
  text is the text of trees (`RustPrelude.v`) that, interpreted (`RustPreludeSem.v`), do the same.
* That `tsc` accepts the generated TypeScript file and compiles it as the interpreter runs it. C82 proves
  that its text reads, by the grammar of `TsGrammar.v`, as the trees that are interpreted; not that it
  reads as no other trees. The printed text is compared with
  `/repo/test_data/types.ts` by `tools/golden.py`. The interpreter gets stuck (`ExStuck`) on whatever
  it does not know, so the theorems say that it never meets that. `tsc`'s type checker is not
  modelled; `ts_has` says which values a type has.
