{"id": "C01", "title": "Varint round-trip", "statement": "In the generated Rust code, decoding the variable-width encoding of any u64, followed by arbitrary further bytes, yields exactly that u64 and leaves exactly the further bytes unread.", "quantifier": "every u64 value and every byte string that follows it", "why_tests_cant": "2^64 values times all continuations; tests only sample the nine length classes' edges", "anchors": ["src/generate_rust.rs: generate (serialize_varint, deserialize_varint)"]}
{"id": "C02", "title": "Varint layout and size", "statement": "The encoding of n has the length documented in the README table (1 to 9 bytes, bijective numeration), equals the documented bit layout, its length is what size computation predicts, and the length is recoverable from the first byte alone.", "quantifier": "every u64 value", "why_tests_cant": "2^64 values", "anchors": ["src/generate_rust.rs: generate (varint_size_from_value, varint_size_from_first_byte, serialize_varint)", "README.md: Unsigned variable-width integers"]}
{"id": "C03", "title": "Varint is never longer than base-128 and is order-consistent in size", "statement": "For every u64 the encoding is at most as long as the base-128 varint of Protocol Buffers/Thrift, and a larger integer never has a shorter encoding.", "quantifier": "every u64 value / every pair", "why_tests_cant": "2^64 values and 2^128 pairs", "anchors": ["src/generate_rust.rs: varint_size_from_value", "README.md: bijective numeration claim"]}
{"id": "C04", "title": "Varint decoding is total, in range, and canonical up to the 9-byte wrap", "statement": "Decoding any byte string either reports end-of-input or returns a value below 2^64 without arithmetic overflow; each value has exactly one accepted encoding except that 9-byte encodings whose addition wraps modulo 2^64 are accepted as aliases of values below 72,624,976,668,147,840.", "quantifier": "every byte string", "why_tests_cant": "unbounded set of byte strings; the alias class has 2^56 members", "anchors": ["src/generate_rust.rs: deserialize_varint"]}
{"id": "C05", "title": "ZigZag is a bijection that keeps small magnitudes small", "statement": "zigzag_encode and zigzag_decode are mutually inverse between i64 and u64, 0,-1,1,-2,2... map to 0,1,2,3,4..., with the 64-bit shifts and two's-complement reinterpretation of the generated code.", "quantifier": "every i64 / every u64", "why_tests_cant": "2^64 values each way", "anchors": ["src/generate_rust.rs: zigzag_encode, zigzag_decode", "README.md: Signed variable-width integers"]}
{"id": "C06", "title": "TypeScript and Rust integer primitives agree", "statement": "For every in-range integer the generated TypeScript computes the same varint bytes, varint size, ZigZag value and decoded value as the generated Rust, and on every byte string the two varint decoders agree.", "quantifier": "every u64 / i64 / byte string", "why_tests_cant": "two independent implementations over 2^64 values", "anchors": ["src/generate_typescript.rs: generate (serializeVarint, deserializeVarint, zigzagEncode, zigzagDecode, varintSizeFromValue, varintSizeFromFirstByte)", "src/generate_rust.rs"]}
{"id": "C07", "title": "Field header round-trip", "statement": "For every field index up to 2^62-1, payload size and encoding kind, the header reader recovers the index and the payload size from the header bytes followed by the payload, and the predicted header size equals its length.", "quantifier": "every index, payload size, kind and following bytes", "why_tests_cant": "unbounded combinations", "anchors": ["src/generate_rust.rs: field_header_size, serialize_field_header, deserialize_field_header", "src/validator.rs: MAX_FIELD_INDEX"]}
{"id": "C08", "title": "size() is exact", "statement": "For every schema type and every message, size() (from the atlas) equals the number of bytes serialize() writes, at every nesting level.", "quantifier": "every type and every well-typed outgoing message", "why_tests_cant": "types and messages are unbounded trees", "anchors": ["src/generate_rust.rs: write_atlas_calculation, write_atlas_lookup, write_serialization_invocation, write_size_function"]}
{"id": "C09", "title": "Serialization never panics and produces the documented wire format", "statement": "serialize() of any well-typed message below 2^64 bytes succeeds on a non-failing writer (never hits the atlas-mismatch panic) and writes exactly the bytes described in the README's Binary encoding section.", "quantifier": "every type and every well-typed outgoing message", "why_tests_cant": "unbounded trees", "anchors": ["src/generate_rust.rs: write_serialization_invocation, write_u64_serialization_invocation, write_schema", "README.md: Binary encoding"]}
{"id": "C10", "title": "Message round-trip (Rust)", "statement": "For every type and every well-typed outgoing message shorter than 2^60 bytes, deserialize(serialize(m)) succeeds and equals In::from(m).", "quantifier": "every type and message", "why_tests_cant": "unbounded trees; tests use one comprehensive schema", "anchors": ["src/generate_rust.rs: write_schema (atlas, serialize_with_atlas, deserialize_from_reader_ref, From)"]}
{"id": "C11", "title": "Serialization is injective", "statement": "Two well-typed outgoing messages of the same type with the same bytes are the same message (including fallbacks of choices, absent optional fields and signed zeros/NaN payloads of floats).", "quantifier": "every type and every pair of messages", "why_tests_cant": "pairs of unbounded trees", "anchors": ["src/generate_rust.rs: write_schema"]}
{"id": "C12", "title": "Safe schema changes are compatible in both directions", "statement": "If schema B is obtained from A by the README's safe changes (rename/reorder, add/remove optional and asymmetric fields, convert asymmetric to/from optional/required, one-required-field struct to/from choice; applied at any nesting depth), every message written under A is read under B (and vice versa) successfully, and every field common to both keeps its value, unknown fields are dropped, absent ones are absent, and choices fall back to the first recognised field.", "quantifier": "every pair of types related by safe changes and every message", "why_tests_cant": "quantifies over all schemas, all edits and all messages", "anchors": ["README.md: Summary of what kinds of schema changes are safe", "src/generate_rust.rs: write_schema deserialize_from_reader_ref", "integration_tests/types/schema_evolution"]}
{"id": "C13", "title": "The safety relation is reflexive and symmetric but not transitive", "statement": "The compatibility relation induced by the safe changes is reflexive on valid types, symmetric, and not transitive.", "quantifier": "every type / pair of types", "why_tests_cant": "all schemas", "anchors": ["README.md: 'In mathematical terms, these rules define...'"]}
{"id": "C14", "title": "Unsafe changes really are unsafe", "statement": "Whenever a pair of types differs by a change outside the safe list (adding/removing a required field, optional<->required, in structs and choices), some message written by one side is rejected by the other side.", "quantifier": "every pair of field lists differing by such a change", "why_tests_cant": "all schemas; shows the safe list cannot be extended", "anchors": ["README.md: Adding or removing required fields is risky", "src/generate_rust.rs: required_fields_present"]}
{"id": "C15", "title": "Unknown fields are ignored", "statement": "Inserting complete fields with indices the reader does not know anywhere between the fields of a struct message does not change the result of deserializing it.", "quantifier": "every struct type, message, insertion point and unknown field content", "why_tests_cant": "unbounded", "anchors": ["src/generate_rust.rs: skip, write_schema"]}
{"id": "C16", "title": "Required fields are enforced", "statement": "deserialize of a struct succeeds only if every required field occurred in the input, a well-formed message lacking one is rejected with InvalidData, and optional and asymmetric fields may be missing.", "quantifier": "every struct type and input", "why_tests_cant": "unbounded inputs", "anchors": ["src/generate_rust.rs: required_fields_present, MISSING_FIELDS_ERROR_MESSAGE"]}
{"id": "C17", "title": "Choices use the first recognised field", "statement": "Reading a choice returns the first field in the chain whose index the reader knows; later fields of a required/asymmetric match are ignored; an optional match carries the fallback read from the rest; no recognised field is an error.", "quantifier": "every choice type and every chain of fields", "why_tests_cant": "unbounded chains", "anchors": ["src/generate_rust.rs: write_schema Choice deserialize_from_reader_ref, finish"]}
{"id": "C18", "title": "Deserialized messages are well-typed", "statement": "Whatever the input bytes, if deserialize succeeds the result is a well-typed incoming message: integers in range, strings valid Unicode, required fields present, only declared fields, optional choice fields with a fallback.", "quantifier": "every type and every byte string", "why_tests_cant": "all byte strings, adversarial ones included", "anchors": ["src/generate_rust.rs: write_deserialization_invocation"]}
{"id": "C19", "title": "A nested value never reads past its declared size", "statement": "Whatever the input bytes, decoding a field or array element consumes only bytes within its declared payload size, and what is left is a suffix of the input (no over-reading).", "quantifier": "every type, every byte string", "why_tests_cant": "adversarial inputs", "anchors": ["README.md: Security", "src/generate_rust.rs: write_deserialization_invocation (Read::take)"]}
{"id": "C20", "title": "Panics during Rust deserialization happen only on absurd declared sizes", "statement": "deserialize panics (capacity overflow in reserve_exact) only if some declared size exceeds 2^60-1; such inputs exist and are a few bytes long, so 'deserialize never panics' is false.", "quantifier": "every type and every byte string", "why_tests_cant": "adversarial inputs", "anchors": ["src/generate_rust.rs: write_deserialization_invocation reserve_exact"]}
{"id": "C21", "title": "Rust deserialization terminates, except on a truncated unknown field", "statement": "deserialize loops forever if and only if it reaches an unknown field whose declared payload is longer than the bytes available (skip spins on an empty buffer); such inputs exist, so 'deserialize always terminates' is false; with complete payloads it always terminates.", "quantifier": "every reader input", "why_tests_cant": "non-termination cannot be observed by a passing test", "anchors": ["src/generate_rust.rs: skip, finish"]}
{"id": "C22", "title": "Truncated messages are not always rejected", "statement": "Cutting a valid message short can still deserialize successfully with shortened data in the Rust code (field headers, byte strings and arrays treat end-of-input as the end); choices cut inside the header chain are always rejected.", "quantifier": "every type and cut point", "why_tests_cant": "every cut point of every message", "anchors": ["src/generate_rust.rs: UnexpectedEof handling in write_schema and write_deserialization_invocation"]}
{"id": "C23", "title": "Chunking of the input does not matter", "statement": "The result of deserializing depends only on the concatenation of the bytes a BufRead delivers, not on how fill_buf/read split them.", "quantifier": "every chunking of every input", "why_tests_cant": "every schedule of buffer refills", "anchors": ["src/generate_rust.rs: skip, finish, deserialize_field_header (fill_buf), Read::take"]}
{"id": "C24", "title": "A failing writer leaves a prefix", "statement": "If the writer fails after accepting k bytes, serialize returns an error exactly when k is less than the message size and what was written is exactly the first k bytes of the encoding.", "quantifier": "every message and every failure point k", "why_tests_cant": "every crash point", "anchors": ["src/generate_rust.rs: write_serialize_function, write_serialization_invocation (? propagation)"]}
{"id": "C25", "title": "TypeScript and Rust produce identical bytes", "statement": "For every type and message representable in both languages (no NaN payloads), the TypeScript serialize returns exactly the bytes of the Rust serialize, never writes outside the buffer it allocated and fills it completely.", "quantifier": "every type and message", "why_tests_cant": "two implementations over unbounded trees", "anchors": ["src/generate_typescript.rs: write_atlas_calculation, write_serialization_invocation", "src/generate_rust.rs"]}
{"id": "C26", "title": "TypeScript round-trip", "statement": "TypeScript deserialize(serialize(m)) yields the incoming form of m for every message none of whose strings starts with U+FEFF; a string starting with U+FEFF loses that character (TextDecoder strips the BOM), so the unrestricted claim is false.", "quantifier": "every type and message", "why_tests_cant": "unbounded; the BOM case is a needle", "anchors": ["src/generate_typescript.rs: write_deserialization_invocation, textDecoder"]}
{"id": "C27", "title": "TypeScript deserialization confinement", "statement": "When a message is accepted by TypeScript deserialize from its bytes alone, the same message is returned when those bytes are a view into any larger ArrayBuffer; but for malformed input it can return bytes lying outside the view (sub-views are bounds-checked against the whole buffer only), so 'never reads outside the view' is false.", "quantifier": "every buffer, view and message", "why_tests_cant": "depends on bytes outside the message", "anchors": ["README.md: Security (buffer over-reading)", "src/generate_typescript.rs: new DataView(dataViewAlias.buffer, ...)"]}
{"id": "C28", "title": "TypeScript deserialize always returns", "statement": "TypeScript deserialize terminates on every input and returns either a message or an Error; it never throws and never loops.", "quantifier": "every type and byte string", "why_tests_cant": "adversarial inputs", "anchors": ["src/generate_typescript.rs: write_deserialize_function", "README.md: The generated functions never throw exceptions"]}
{"id": "C29", "title": "Rust and TypeScript readers agree on valid messages but not on all inputs", "statement": "On every message produced by either serializer both readers return the same result; on arbitrary input they can disagree (duplicate struct fields: Rust keeps the first, TypeScript the last).", "quantifier": "every message; every byte string", "why_tests_cant": "differential over unbounded inputs", "anchors": ["src/generate_rust.rs: get_or_insert", "src/generate_typescript.rs: write_schema"]}
{"id": "C30", "title": "Validation is sound", "statement": "If validation succeeds, then in every file declaration names are unique, and in every declaration field names and indices are unique, no index is reserved as deleted, every index is at most 2^62-1, used and deleted indices cover an initial segment of the naturals, and every type reference resolves.", "quantifier": "every set of loaded schemas", "why_tests_cant": "unbounded schemas", "anchors": ["src/validator.rs: validate, validate_type"]}
{"id": "C31", "title": "Validation is complete", "statement": "Every set of schemas satisfying those conditions and having no type cycle is accepted.", "quantifier": "every set of loaded schemas", "why_tests_cant": "unbounded schemas", "anchors": ["src/validator.rs: validate"]}
{"id": "C32", "title": "Cycle detection is exact and terminates", "statement": "The cycle check terminates and reports an error if and only if some type refers to itself through a chain of fields and arrays, across files.", "quantifier": "every set of otherwise valid schemas", "why_tests_cant": "every reference graph", "anchors": ["src/validator.rs: check_declaration_for_cycles, check_type_for_cycles"]}
{"id": "C33", "title": "Validated schemas can be compiled", "statement": "For every validated set of schemas every declared type expands to a finite tree whose indices fit the field header, i.e. it satisfies the hypotheses of the message theorems.", "quantifier": "every validated set of schemas", "why_tests_cant": "unbounded schemas", "anchors": ["src/validator.rs", "src/generate_rust.rs: write_type, write_schema"]}
{"id": "C34", "title": "Parsing panics only on a dangling comment", "statement": "Parsing any token sequence returns a schema or errors, except that a comment as the very last token, where a declaration is expected, indexes past the end and panics; so 'typical never crashes on bad schemas' is false.", "quantifier": "every token sequence", "why_tests_cant": "every token sequence", "anchors": ["src/parser.rs: parse_schema, parse_type"]}
{"id": "C35", "title": "Parsing terminates and accepts only complete inputs", "statement": "The parser always terminates; it returns a schema only if every token was consumed and no error was recorded; whatever it returns respects the grammar (printing the schema's tokens gives back the input tokens).", "quantifier": "every token sequence", "why_tests_cant": "every token sequence", "anchors": ["src/parser.rs: parse, parse_schema, parse_field, parse_type, parse_import"]}
{"id": "C36", "title": "Identifier comparison", "statement": "Identifier equality is an equivalence insensitive to case style, agrees with ordering and hashing; ordering is total.", "quantifier": "every pair/triple of identifiers", "why_tests_cant": "all strings", "anchors": ["src/identifier.rs"]}
{"id": "C37", "title": "Generated names are distinct", "statement": "Distinct identifiers get distinct PascalCase and camelCase names when every word starts with a letter; in general they need not (foo_1 and foo1), so validation can accept schemas whose generated code has duplicate names.", "quantifier": "every pair of identifiers", "why_tests_cant": "all strings", "anchors": ["src/identifier.rs: pascal_case, camel_case, split_words", "src/validator.rs"]}
{"id": "C38", "title": "Formatting preserves meaning", "statement": "Formatting a parsed schema and parsing the result gives the same schema (up to source positions) when no identifier is a keyword and every type-name word starts with a letter; a field named with a raw identifier such as $choice is printed without the sigil and no longer parses.", "quantifier": "every schema", "why_tests_cant": "all schemas", "anchors": ["src/schema.rs: write", "src/tokenizer.rs: RAW_IDENTIFIER_SIGIL", "src/main.rs: format_schema"]}
{"id": "C39", "title": "Formatting is idempotent", "statement": "Under the same conditions formatting a formatted schema changes nothing.", "quantifier": "every schema", "why_tests_cant": "all schemas", "anchors": ["src/schema.rs: write", "src/main.rs: format_schema"]}
{"id": "C40", "title": "Commands write files only when they should", "statement": "format --check never writes and fails exactly when some file would change; format writes only files whose contents change; generate writes nothing when loading or validation fails; a failing write stops later writes.", "quantifier": "every file system state, option combination and write failure", "why_tests_cant": "every crash point of the run", "anchors": ["src/main.rs: generate_code, format_schema"]}
{"id": "C41", "title": "Schema loading computes the import closure", "statement": "Loading terminates even with cyclic imports, returns each reachable namespace once, and every import of a returned schema resolves to a returned schema; any unreadable, unparsable or escaping import makes it fail.", "quantifier": "every file system and import graph", "why_tests_cant": "every import graph", "anchors": ["src/schema_loader.rs: load_schemas"]}
{"id": "C42", "title": "Namespace conflicts between files are silently ignored", "statement": "Two different imported files that map to the same namespace are never reported: only the first is loaded (the conflict branch is unreachable).", "quantifier": "every file system", "why_tests_cant": "every import graph", "anchors": ["src/schema_loader.rs: load_schemas (visited_namespaces, conflict error)"]}
{"id": "C43", "title": "Relative type paths resolve", "statement": "From namespace B, going up the computed number of levels and descending the computed relative namespace reaches namespace A, with the fewest possible upward steps.", "quantifier": "every pair of namespaces", "why_tests_cant": "all pairs", "anchors": ["src/schema.rs: relativize_namespace", "src/generate_rust.rs: write_type, write_supers"]}
{"id": "C44", "title": "The module tree contains every schema exactly once", "statement": "After inserting all loaded schemas the module tree holds each schema at its namespace path and nothing else.", "quantifier": "every set of schemas", "why_tests_cant": "all sets", "anchors": ["src/generate_rust.rs: insert_schema", "src/generate_typescript.rs: insert_schema"]}
{"id": "C45", "title": "Tokenizer positions and integer literals", "statement": "Tokens come out in increasing, non-overlapping source ranges; an integer literal is accepted exactly when it is below 2^64, with its decimal value.", "quantifier": "every source text", "why_tests_cant": "all strings", "anchors": ["src/tokenizer.rs: tokenize"]}
{"id": "C46", "title": "Identifier tokens", "statement": "Every identifier token the tokenizer accepts is non-empty, does not begin with an underscore and contains only letters, digits and underscores; contrary to the README it may begin with a digit when written with the raw sigil ($1).", "quantifier": "every source text", "why_tests_cant": "all strings", "anchors": ["src/tokenizer.rs: tokenize", "README.md: Identifiers"]}
{"id": "C47", "title": "Escaping of Rust keywords", "statement": "Field names that are Rust keywords are escaped so that the emitted name is a legal Rust identifier, except self, Self, super and crate, for which r# is not legal.", "quantifier": "every identifier", "why_tests_cant": "all identifiers", "anchors": ["src/generate_rust.rs: write_identifier, RUST_KEYWORDS"]}
{"id": "C48", "title": "String encoding", "statement": "UTF-8 encoding of any sequence of Unicode scalar values decodes back to it, no normalization happens, and the Rust reader accepts a string payload only if it is the UTF-8 encoding of some scalar sequence.", "quantifier": "every scalar sequence / byte string", "why_tests_cant": "all strings", "anchors": ["src/generate_rust.rs: read_to_string, as_bytes", "README.md: Built-in types (String)"]}
{"id": "C49", "title": "Any type can be migrated to any other", "statement": "For any two user-defined types for which messages exist there is a series of safe schema changes leading from one to the other, through types for which messages exist.", "quantifier": "all pairs of well-formed structs/choices with at most 2^62-1 fields that have at least one message", "why_tests_cant": "existence of a chain for every pair of types of unbounded shape", "anchors": ["README.md: Summary of what kinds of schema changes are safe", "src/generate_rust.rs: write_schema"]}
{"id": "C50", "title": "Documented compactness", "statement": "Headers of Unit, F64, U64, S64 and Bool fields with index below 32 take one byte; U64 and S64 field payloads take at most 8 bytes; a unit case with index below 32 of a choice takes one byte in total.", "quantifier": "all values of those types, all indices below 32", "why_tests_cant": "ranges over all 64-bit values", "anchors": ["README.md: Binary encoding", "src/generate_rust.rs: serialize_field_header"]}
{"id": "C51", "title": "Header of [Unit] fields differs from the README", "statement": "The README's rule that a value encoded as a variable-width integer gets size mode 2 does not hold for [Unit] fields: the code writes size mode 3 and an explicit size.", "quantifier": "existence of a message", "why_tests_cant": "a statement about the documented rule for all values; refuted by a witness", "anchors": ["README.md: Structs", "src/generate_rust.rs: integer_encoded"]}
{"id": "C52", "title": "TypeScript serializes the case and the fields the caller set", "statement": "The TypeScript struct serializer reads for every field exactly what the caller set (an optional field set to undefined is absent), whenever property names are distinct. The choice serializer picks the case the caller's object was built for if moreover no field's property name is a member of Object.prototype; a choice with a field called to_string, value_of, has_own_property, ... violates it: the 'in' test sees the inherited member and the wrong case is serialized.", "quantifier": "every list of field names and every message object", "why_tests_cant": "it ranges over every choice of field names, of which tests try a few ordinary ones", "anchors": ["src/generate_typescript.rs: write_schema (atlas, serializeWithAtlasUnsafe), write_struct, write_choice, write_identifier"]}
{"id": "C53", "title": "TypeScript deserialize returns well-typed messages", "statement": "Whatever bytes TypeScript deserialize is given, a message it returns has the declared type: required fields present, numbers in range, strings of Unicode scalar values, choices with a declared case and a fallback exactly when the case is optional.", "quantifier": "every type, buffer and view", "why_tests_cant": "ranges over all, including malicious, inputs", "anchors": ["src/generate_typescript.rs: write_deserialization_invocation, write_deserialize_function"]}
{"id": "C54", "title": "TypeScript readers skip unknown fields and enforce required ones", "statement": "On any sequence of complete fields the TypeScript struct reader ignores fields it does not know, uses the last occurrence of each field it knows, and fails exactly when a required field is missing; the choice reader uses the first field it knows and fails if there is none.", "quantifier": "every reader type and every sequence of complete fields", "why_tests_cant": "ranges over all field sequences", "anchors": ["src/generate_typescript.rs: write_schema (deserializeUnsafe)"]}
{"id": "C55", "title": "Escaping of TypeScript keywords", "statement": "Every name emitted into TypeScript code (type, namespace and property names, with or without suffix) is a legal identifier and not a reserved word of ECMAScript, strict mode and modules included.", "quantifier": "every identifier that starts with a letter, every casing and suffix", "why_tests_cant": "tests use a handful of field names; the claim is about all of them against the language's whole list of reserved words", "anchors": ["src/generate_typescript.rs: TYPESCRIPT_KEYWORDS, write_identifier", "src/identifier.rs: Identifier::camel_case, pascal_case, join"]}
{"id": "C56", "title": "Reported validation errors are exactly the defects", "statement": "When validation fails for a reason other than a cycle, the set of errors reported is exactly the set of defects present: each duplicate declaration, field name or index, each use of a reserved or too large index, each unresolved import or type and each unreserved gap is reported, and nothing else is.", "quantifier": "every set of loaded schemas and every defect", "why_tests_cant": "unbounded schemas and combinations of defects", "anchors": ["src/validator.rs: validate, validate_type"]}
{"id": "C57", "title": "Type references in generated code resolve to the right type", "statement": "For every set of schemas that validates, each reference to a user-defined type in a declaration is written in the generated Rust code as a path which, followed by Rust's rules from the module of the declaration, names the type generated for exactly the declaration that the schema refers to (same direction suffix) and nothing else; likewise in TypeScript, provided that no module enclosing the reference contains a namespace named like the first path segment.", "quantifier": "all sets of schemas, any nesting of directories, all references", "why_tests_cant": "Directory layouts and name combinations are unbounded; the integration tests use a handful of files and miss the layouts for which TypeScript resolution fails (a file foo.t that declares Foo and refers to it).", "anchors": ["src/generate_rust.rs: write_type, write_supers, write_module", "src/generate_typescript.rs: write_custom_type, write_module", "src/schema.rs: relativize_namespace"]}
{"id": "C58", "title": "Names in generated code capture nothing the code relies on", "statement": "No generated type name equals a standard-library or prelude name used by the generated code, and local variables made from field names are legal Rust identifiers, different for different fields. (Refuted for fields named like Rust keywords, for TypeScript declarations named like global objects and for files named like Rust standard modules.)", "quantifier": "all field, type and file names", "why_tests_cant": "Every possible name would have to be tried.", "anchors": ["src/generate_rust.rs: write_schema (645, 700, 877), write_identifier", "src/generate_typescript.rs: write_schema, write_identifier"]}
{"id": "C59", "title": "From schema files to messages, end to end", "statement": "If `typical generate` succeeds on a schema whose imported files have different namespaces, then every type declared in any file reached through imports stands for exactly one well-formed type tree, and every message of that type round-trips through the generated Rust code and the generated TypeScript code, which write the same bytes.", "quantifier": "every file system, every set of schema files, every declared type, every message", "why_tests_cant": "ranges over all schema projects and all their messages; combines loading, validation and both codecs", "anchors": ["src/main.rs: generate_code", "src/schema_loader.rs: load_schemas", "src/validator.rs: validate", "src/generate_rust.rs", "src/generate_typescript.rs"]}
{"id": "C60", "title": "Every accepted schema becomes a Rust program whose size() is exact", "statement": "For every set of schemas that loading and validation accept, with plain names, the Rust generator does not panic, and calling size() of any generated outgoing type on any message returns the length of the documented encoding.", "quantifier": "all accepted schemas, all declarations, all messages shorter than 2^64 bytes", "why_tests_cant": "The generator is run on two schemas in the tests; the claim is about the code it emits for every schema.", "anchors": ["src/generate_rust.rs: generate, write_schema, write_atlas_calculation, write_size_calculation_invocation"]}
{"id": "C61", "title": "The generated serialize() writes the documented encoding", "statement": "For every accepted schema and message, calling serialize() of the generated outgoing type hands the writer a prefix of the documented encoding, returns Ok exactly if it is all of it, and never panics, whatever the writer does.", "quantifier": "all accepted schemas, messages, and writer behaviours", "why_tests_cant": "ranges over all schemas, messages and writers", "anchors": ["src/generate_rust.rs: write_schema, write_serialization_invocation"]}
{"id": "C62", "title": "The generated deserialize() is the documented decoder", "statement": "For every accepted schema and every input, however it is cut into buffers, calling deserialize() of the generated incoming type returns the message, the error, the panic or the endless loop that the decoder of C10-C23 has for these bytes.", "quantifier": "all accepted schemas, all byte strings, all ways to cut them", "why_tests_cant": "ranges over all schemas and all inputs, malformed ones included", "anchors": ["src/generate_rust.rs: write_schema, write_deserialization_invocation"]}
{"id": "C63", "title": "The generated conversion keeps the message", "statement": "For every accepted schema, From<FooOut> for FooIn returns the same message, without the fallbacks of asymmetric choice cases.", "quantifier": "all accepted schemas and messages", "why_tests_cant": "ranges over all schemas and messages", "anchors": ["src/generate_rust.rs: write_schema, write_into_invocation"]}
{"id": "C64", "title": "Generated programs round-trip and evolve", "statement": "What the program generated from a schema has written with serialize(), its deserialize() reads as from() of the message; and the program generated from another version of the schema, related by the safe changes of the README, reads it as the migrated message.", "quantifier": "all pairs of accepted schemas related by safe changes, all messages below 2^60 bytes, all ways to cut the input", "why_tests_cant": "ranges over all pairs of schema versions and all messages", "anchors": ["src/generate_rust.rs", "README.md"]}
{"id": "C65", "title": "The generated Rust types have exactly the messages as values", "statement": "For every accepted schema, the values that Rust's type system admits for the generated types FooOut and FooIn (given the struct and enum items in the generated file and the paths in them) are exactly the messages of the schema type in that direction, each of them once; so serialize() accepts every value of its type without panicking.", "quantifier": "all accepted schemas, declarations, directions and Rust values", "why_tests_cant": "ranges over all schemas and all values", "anchors": ["src/generate_rust.rs: write_struct, write_choice, write_type"]}
{"id": "C66", "title": "A successful run of typical generate --rust leaves a working program in the output file", "statement": "If every schema file reached from the given one has plain names (ASCII words starting with letters) and different files have different namespaces, then after a successful run of the generate command with --rust the output file holds the text of a Rust program in which every declaration of every reached file has its types, and for every value m of a type FooOut whose encoding is shorter than 2^60 bytes: if m.serialize(w) succeeds, w has received the documented encoding, and FooIn::deserialize of these bytes, however cut into chunks, succeeds with FooIn::from(m). Independently of names, generating Rust code crashes only if the parser does.", "quantifier": "all file systems, schema files, sets of failing file operations, declarations, messages, writers and chunkings", "why_tests_cant": "composes loading, parsing, validation, code generation and the behaviour of the generated program, each over unboundedly many inputs", "anchors": ["src/main.rs: generate_code", "src/schema_loader.rs: load_schemas", "src/validator.rs: validate", "src/generate_rust.rs: generate"]}
{"id": "C67", "title": "Generating TypeScript never panics", "statement": "For every set of schemas that has been loaded and passes validation, generating TypeScript code succeeds; and whatever output files are asked for and whichever file operations fail, the generate command crashes only if the parser panics on one of the schema files.", "quantifier": "all loaded and validated schemas; all file systems, options and failing operations", "why_tests_cant": "the generator unwraps options while resolving names; only a proof over all schemas shows they are never empty", "anchors": ["src/generate_typescript.rs: generate, write_custom_type", "src/main.rs: generate_code"]}
{"id": "C68", "title": "The generated TypeScript program sizes and serializes as documented", "statement": "For every accepted schema whose names do not hide each other, every declaration Foo and every JavaScript value m that stands for a message of type FooOut with an encoding shorter than 2^53 bytes, running the generated Foo.size(m) returns the length of the documented encoding and Foo.serialize(m) returns a new ArrayBuffer that holds exactly the documented encoding (with NaNs canonical); neither changes any array or buffer that was there, except the module's own scratch buffer.", "quantifier": "all accepted schemas, declarations, messages, JavaScript values and heaps", "why_tests_cant": "ranges over all schemas and messages; the generated code is different for each", "anchors": ["src/generate_typescript.rs: write_size_function, write_serialize_function, write_atlas_calculation, write_serialization_invocation, and the prelude text"]}
{"id": "C69", "title": "The generated TypeScript deserialize always returns", "statement": "For every accepted schema whose names do not hide each other, every declaration Foo and every ArrayBuffer, DataView or typed array b, running the generated Foo.deserialize(b) terminates and returns (throws nothing) either an Error or a value that stands for a message of type FooIn, built from new arrays and buffers; which of the two, and which message, is what the model of the codec (C25 to C29) says. No array or buffer that was there is changed, except the module's own scratch buffer.", "quantifier": "all accepted schemas, declarations, byte sequences, views and heaps", "why_tests_cant": "ranges over all byte sequences and schemas", "anchors": ["src/generate_typescript.rs: write_deserialize_function, write_deserialization_invocation, and the prelude text"]}
{"id": "C70", "title": "Generated programs in TypeScript and Rust interoperate, across versions of a schema", "statement": "For any two accepted schemas of which one can be safely changed into the other: what the TypeScript or Rust program generated from one writes for a message, the TypeScript or Rust program generated from the other reads, with the meaning the README documents for added, removed and asymmetric fields; in particular a TypeScript program reads back what it wrote.", "quantifier": "all pairs of accepted schemas related by safe changes, declarations, messages and views or chunkings of the bytes", "why_tests_cant": "ranges over all pairs of schemas and all messages, in two languages", "anchors": ["src/generate_typescript.rs", "src/generate_rust.rs", "README.md: asymmetric fields"]}
{"id": "C71", "title": "A successful run of typical generate --typescript leaves a working program in the output file", "statement": "If every schema file reached from the given one has plain names, different files have different namespaces, no file, directory or declaration is named like a global object of JavaScript, and nothing inside a file or directory is named like one at the top, then after a successful run of the generate command with --typescript the output file holds the text of a TypeScript program with the functions of every declaration of every reached file, and C68 to C70 hold of that program.", "quantifier": "all file systems, schema files, sets of failing file operations, declarations and messages", "why_tests_cant": "composes loading, parsing, validation, code generation and the behaviour of the generated program", "anchors": ["src/main.rs: generate_code", "src/schema_loader.rs: load_schemas", "src/generate_typescript.rs: generate"]}
{"id": "C72", "title": "What the generated TypeScript deserialize returns has the declared type", "statement": "For every accepted schema whose names do not hide each other, the value that Foo.deserialize returns has the type FooIn | Error that the generated file declares: all properties of the type are there, with values of their types, and no others. The type means the same inside the namespace of Foo, where it is written, unless a file whose namespace is that of Foo declares types.", "quantifier": "all accepted schemas, declarations and byte sequences", "why_tests_cant": "TypeScript checks annotations only at compile time; no test shows that every input leads to a value of the type", "anchors": ["src/generate_typescript.rs: write_struct, write_choice, write_type, write_deserialize_function"]}
{"id": "C73", "title": "Every value of the generated TypeScript type FooOut can be serialized", "statement": "A JavaScript value of the generated type FooOut that has no other properties than the type has, whose bigints are in the range of their fields and whose strings have no lone surrogates, and whose choices have no case named like a property of Object.prototype, stands for a message; so serialize returns its encoding in a new ArrayBuffer.", "quantifier": "all accepted schemas, declarations, heaps and JavaScript values", "why_tests_cant": "ranges over all values of all generated types", "anchors": ["src/generate_typescript.rs: write_struct, write_choice, write_type, write_serialize_function"]}
{"id": "C74", "title": "The listing in an error message shows exactly the lines and the characters of its range", "statement": "For every file and every range in it that starts at a visible character and whose last line has one (every range of tokens does), the listing in an error message is made without a panic, and without colours it shows exactly the lines the range touches, in order, each after its right-aligned line number, with an overline under exactly those bytes of the line that belong to characters in the range other than the white space at the ends of the line. With colours it does not panic either. Refuted beyond that: an unexpected symbol at the start of a line has an empty range and an empty listing, and ranges that end in indentation, which are never made, would panic.", "quantifier": "all files, ranges and Unicode tables", "why_tests_cant": "ranges over all texts with multi-byte characters, tabs and blank lines, and all ranges in them", "anchors": ["src/error.rs: listing"]}
{"id": "C75", "title": "The lexical errors reported for a file are exactly the places where it is not a sequence of tokens", "statement": "A file is rejected by the tokenizer if and only if it has a piece that is not a token; the errors are exactly those pieces, in order, each with its kind, its byte range and a message that quotes it, and each can be listed without a panic.", "quantifier": "all texts and Unicode tables", "why_tests_cant": "ranges over all texts", "anchors": ["src/tokenizer.rs: tokenize"]}
{"id": "C76", "title": "Syntax errors are about what they say they are about, and their advice can be followed", "statement": "Every error of the parser points at a token that it quotes, or at the end of the file, or at an index that was already listed as deleted, or at an import whose name was used before or that has none, and can be listed without a panic. If the first one says that something was expected, the file up to there can be continued with a token of the kind expected so that it becomes a schema. The ranges the parser records for imports, declarations, fields and types are from the start of their first token to the end of their last.", "quantifier": "all token sequences, files and Unicode tables", "why_tests_cant": "ranges over all texts", "anchors": ["src/parser.rs: parse, parse_schema, parse_import, parse_declaration, parse_field, parse_type", "src/error.rs: SourceRange"]}
{"id": "C77", "title": "When schemas cannot be loaded, everything wrong with the reached files is reported at its place", "statement": "If loading fails, every error that is shown is about a file reached from the given one: that it cannot be read (with a listing of the import that leads to it), a lexical error, a syntax error, or an import that leads nowhere or out of the base directory, each with the path of the file, a listing of the place, and the reason of the operating system. If different files have different namespaces, no reached file with such a defect is passed over, and all lexical errors and all bad imports are shown. Making the messages never panics and never changes the result.", "quantifier": "all file systems, Unicode tables, texts of the operating system and colour settings", "why_tests_cant": "ranges over all file systems and file contents", "anchors": ["src/schema_loader.rs: load_schemas", "src/error.rs: throw, listing"]}
{"id": "C78", "title": "When schemas are not valid, exactly their faults are reported, each at its place", "statement": "If the loaded schemas are not valid, the errors of generate are exactly the faults of the files: duplicate declarations, field names and indices, deleted or too large indices, index gaps, and unknown imports and types, each with a message that names the offender and a listing of the declaration, field or type in its file. If they are valid but there are cycles, every error shows a chain of references that returns to its start. Making the messages never panics and never changes the result.", "quantifier": "all loadable projects", "why_tests_cant": "ranges over all projects", "anchors": ["src/validator.rs: validate", "src/error.rs: throw, listing"]}
{"id": "C79", "title": "A command that fails says why, completely and last, and says Done only if it succeeds", "statement": "What generate and format do and how they end does not depend on the reporting of errors. If the schemas cannot be loaded or are not valid, the last message has all errors one after the other, and nothing is written. If an operation on files fails, it is the last one, and the message names the file and the reason. Every failing run ends with such a message or with the advice to run the formatter; a run ends with the message Done. if and only if it succeeds.", "quantifier": "all file systems, sets of failing operations and arguments", "why_tests_cant": "ranges over all file systems and failures at every point", "anchors": ["src/main.rs: generate_code, format_schema, main", "src/error_merger.rs: merge_errors", "src/count.rs: count"]}
{"id": "C80", "title": "The helper functions at the top of the generated Rust file, run as written, encode and decode the documented format without overflow", "statement": "The text that precedes the generated modules is the text of eleven functions. Run statement by statement with Rust's typed integers, they compute the documented zigzag, varint and field header encodings, write them with the stated calls of write_all to any writer, read them back from a reader that delivers bytes in any pieces, skip exactly the given number of bytes and consume everything on finish. They never panic and never overflow, so debug and release builds agree; skip does not return when there are fewer bytes than it should skip.", "quantifier": "all 64-bit integers, all readers and all writers, debug and release builds", "why_tests_cant": "2^64 integers, unboundedly many readers and writers", "anchors": ["src/generate_rust.rs: generate (158-386)"]}
{"id": "C81", "title": "The generated Rust text reads, by Rust's tokens and grammar, as the program whose behaviour is proved", "statement": "If the schemas are accepted and the names in them give Rust identifiers (which they do unless a file is called crate, self or super, a field like a keyword, or a case self), then the text written for the declarations, cut into tokens by Rust's longest-match rule and read with Rust's operator precedences, restrictions on struct literals and rules for statements that start with blocks, is the syntax tree whose execution the other properties describe: no missing or doubled separator, no tokens that run together, no operator that captures more or less than intended.", "quantifier": "all accepted sets of schemas, of any size and nesting, and all versions of typical", "why_tests_cant": "the generated text depends on unboundedly many combinations of types, rules, names and nesting of modules", "anchors": ["src/generate_rust.rs: generate, write_module, write_schema, write_struct, write_choice, write_type, write_atlas_calculation, write_serialization_invocation, write_deserialization_invocation"]}
{"id": "C82", "title": "The generated TypeScript text reads, by TypeScript's tokens and grammar, as the program whose behaviour is proved", "statement": "If the schemas are accepted and the names in them give TypeScript identifiers (which they do if they start with a letter), then the whole generated TypeScript file after its leading comments, cut into tokens by the longest-match rule with line breaks after return, throw and break ending the statement, and read with the operator precedences of ECMAScript, is the union type of what can be deserialized, the helper functions, the constants and the namespaces, types and functions whose execution the other properties describe.", "quantifier": "all accepted sets of schemas, of any size and nesting, and all versions of typical", "why_tests_cant": "the generated text depends on unboundedly many combinations of types, rules, names and nesting of namespaces", "anchors": ["src/generate_typescript.rs: generate, write_module, write_schema, write_struct, write_choice, write_type, write_atlas_calculation, write_serialization_invocation, write_deserialization_invocation"]}
{"id": "C83", "title": "A command line does what it says, and the exit status and the last words tell how it went", "statement": "`typical generate SCHEMA` with --rust, --typescript and --list-schemas in any order and in either form (--rust PATH, --rust=PATH), and `typical format SCHEMA` with or without --check, run exactly that command with the given schema, outputs and flags. `typical shell-completion SHELL` writes the script for the shell if it is named Bash, Fish, Zsh, PowerShell or Elvish up to letter case and surrounding white space, and otherwise writes an error that quotes the name and exits with status 1. Whatever the words are, once the command line is read one of these commands is run; the process panics only if the schema parser does; it exits with status 0 exactly if the last thing written is `Done.` or the script, and if it exits with status 1 an error message is the last thing written.", "quantifier": "all command lines, file systems, outcomes of file operations and behaviours of the command line library within its documented contract", "why_tests_cant": "unboundedly many orders and spellings of arguments, file systems and failures", "anchors": ["src/main.rs: cli, entry, main, shell_completion"]}
{"id": "C84", "title": "The generated Rust declarations type-check", "statement": "For every schema that the generator accepts, the generated Rust module declares for each struct and choice three types of finite size, implementations of Serialize and Deserialize with the functions of these traits, and a conversion from the type that is written to the type that is read; and every one of these items follows the typing rules of Rust: each name stands for something declared, each expression has a type, calls pass what functions take, matches are exhaustive, fields of struct literals are given once each, `?` and `return` fit the result type, only `mut` places are changed, nothing is moved out of a reference or used after it has been moved, and nothing is declared twice. The helper functions at the top of the file follow the typing rules too, and the calls in the declarations pass what they take. The only condition is that no schema lies in a module called `std` inside the module of another schema; if a struct lies beside such a module, the generated file has no valid typing.", "quantifier": "all accepted sets of schema files with plain names, of any size, nesting and number of declarations", "why_tests_cant": "unboundedly many combinations of declarations, field types, rules, imports and directory depths; a test compiles one of them", "anchors": ["src/generate_rust.rs: write_module, write_schema, write_type, write_atlas_calculation, write_serialization_invocation, write_deserialization_invocation, write_into_function_body, write_supers"]}
{"id": "C85", "title": "The generated TypeScript has no early errors", "statement": "For accepted schemas whose names do not shadow the names the generated code relies on, in every function of the TypeScript program that `typical generate` writes: every variable that is read is declared in a surrounding block or at the top, its declaration has been passed, and it has been assigned on every path to there; no block declares a name twice, constants are not assigned again; every function that is called exists where the call stands and gets as many arguments as it has parameters; built-in names mean the built-ins; each `break` is inside of a loop or `switch`, no `case` falls through to the next; every statement can be reached and no function ends without `return` or `throw`; numeric literals are exact. Object types and object literals have no property twice (nor `__proto__`), and no two types of a file or declaration have the same name.", "quantifier": "all accepted sets of schemas (any number of files, imports, declarations, fields, nested types, rules), all functions and types of the generated program and its helper functions", "why_tests_cant": "The code is assembled from fragments that depend on types, rules and names; a test only compiles the programs for the schemas at hand.", "anchors": ["src/generate_typescript.rs: write_schema", "src/generate_typescript.rs: write_struct", "src/generate_typescript.rs: write_choice", "src/generate_typescript.rs: write_atlas_calculation", "src/generate_typescript.rs: write_serialization_invocation", "src/generate_typescript.rs: write_deserialization_invocation", "src/generate_typescript.rs: generate (prelude)"]}
{"id": "C86", "title": "Decoding does not blow up a message", "statement": "The message that the generated Rust `deserialize` returns is never larger than a constant of the type (the number of nodes of its type tree) times the number of bytes it was read from plus one, however the bytes are nested, repeated, truncated or malformed and however the reader divides them. Size is the number of values, field places and bytes of strings in the message; elements of `[Unit]` take no space in Rust (counting them, the claim holds for the types without `[Unit]` and fails with it). In TypeScript the size is bounded by a polynomial whose degree is the nesting depth of the type; a linear bound fails there: `12 n + 20` bytes can become a message of size `n * n`, since an element may declare fields that go on beyond its own end and those bytes are read again for every element.", "quantifier": "all well-formed types; all byte strings (and all divisions into buffers); all declared sizes and memory limits; for TypeScript all views into all buffers; for the lower bound all n from 9 to 2^30", "why_tests_cant": "A decompression bomb is one input among all byte strings of all lengths for one of infinitely many schemas; a test shows that some inputs decode to small messages, not that none decodes to a large one.", "anchors": ["src/generate_rust.rs: write_deserialization_invocation, write_schema (deserialize)", "src/generate_typescript.rs: write_deserialization_invocation, write_schema (deserializeUnsafe)"]}
{"id": "C87", "title": "Encoding does not blow up a message", "statement": "A serialized message takes at most 18 bytes for each value, field place and byte of a string in it, headers and sizes included; this is what `size` says, what Rust writes and what TypeScript writes. So a message that is read and sent on as it is takes at most a constant of the type times the bytes it was read from. (It may take more than those: the reader accepts a shorter header for a nested struct than the writer writes.)", "quantifier": "all well-formed types; all outgoing messages; for forwarding all byte strings the reader accepts", "why_tests_cant": "The bound is over messages of every size and nesting for infinitely many schemas; tests measure a few.", "anchors": ["src/generate_rust.rs: write_atlas_calculation, write_serialization_invocation, field_header_size", "src/generate_typescript.rs: write_atlas_calculation, write_serialization_invocation"]}
{"id": "C88", "title": "Forwarding is lossless and stable", "statement": "A message that was read from any accepted bytes and that can be sent as it is is read again as the same message; from then on the bytes do not change any more when the message is read and written again. If the type has no asymmetric field at any depth, every message that was read can be sent, so a relay never fails, and its output takes at most a constant of the type times the bytes it received (plus one). (With asymmetric fields a message that was read may lack a field that must be sent.)", "quantifier": "all well-formed types; all byte strings the reader accepts (unknown and repeated fields, other forms of headers and integers, trailing bytes), all memory limits; messages below 2^60 bytes", "why_tests_cant": "The bytes a relay receives are not only those a writer of the same schema produces; the claim ranges over every byte string the reader accepts for infinitely many types.", "anchors": ["src/generate_rust.rs: write_deserialization_invocation, write_serialization_invocation, write_schema (From<...In> for ...Out)", "README.md: asymmetric fields"]}
{"id": "C89", "title": "Chains of relays in both languages keep the message", "statement": "Let programs pass a message on, one after the other, each of them in Rust or in TypeScript, each reading the bytes it gets and writing what it read. Once the first has seen a message (whatever the bytes it got: unknown or repeated fields, other forms of headers) and could send it, no later program fails to read or to write it, all of them and the reader at the end see the same message, and no byte changes any more. (JavaScript makes NaNs canonical: with other NaNs the messages are the same but for those. Strings must not start with U+FEFF: TypeScript loses one of those per relay.) If the type has no asymmetric field, whatever TypeScript read it can also write.", "quantifier": "all well-formed types; all byte strings the first program accepts; chains of any length and in any order of the languages; messages below 2^53 bytes", "why_tests_cant": "The number of chains is infinite and the bytes the first program gets are arbitrary; a test sends a few messages through a few programs.", "anchors": ["src/generate_rust.rs: write_deserialization_invocation, write_serialization_invocation", "src/generate_typescript.rs: write_deserialization_invocation, write_serialization_invocation"]}
