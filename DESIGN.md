# Formal model of styx in Rocq

The model lives in `rocq/theories`. `/repo` is read as text only.

## Conventions

* A Rust `char` is an `N` (code point), a `&str` is a `list N`, a byte string is a `list N`.
  Theorems about byte offsets use `blen`, the UTF-8 length. Strings are arbitrary lists of `N`
  unless a theorem says `valid_char`; every theorem proved for arbitrary lists holds for Rust strings in particular.
* Positions are `nat` byte offsets. The `u32` casts of the code are not modelled: sources are assumed shorter than 4 GiB.
* A Rust panic (slice out of range, off a character boundary, failed `assert!`, `unwrap` on `None`) is an explicit result
  value, so "does not panic" is a provable statement.
* Loops that are not structural take fuel. Running out of fuel is an explicit value that the theorems exclude.
* Files `*Model.v` hold definitions only (each citing file and lines), `*Proofs.v` hold lemmas,
  `Prop*.v` hold the property theorems with `Print Assumptions` and a concrete example beside each theorem.
* A name ending in `_partial` proves a part of the property; a name ending in `_refuted` proves that the full
  property is false of the modelled code and gives the witness.

## Plan per property

| id | model | proof |
|----|-------|-------|
| C01 C02 | tokenizer, function by function | each tokenize_* splits the remaining input; induction on fuel for the whole stream |
| C03 C12 C13 C40 | lexer on top of the tokenizer, with explicit panics for slices | case analysis of each lexeme; known panic with 256+ hashes becomes a refutation, the rest a conditional theorem |
| C04 C05 C06 C07 | parser state machine with lexeme source, event queue and state stack | invariant on (state stack, queue, input left); lexicographic measure for termination; nesting checker as independent spec; `a 1` newline `{b 2}` is expected to refute full C05 |
| C08 C09 | the seen-keys map and PathState | invariant over the history of keys; independent spec by membership / prefix relations |
| C10 C39 | the four escape decoders and the encoder | induction on strings, round trip lemmas |
| C11 C14 | can_be_bare, writer's choice of style, tokenizer | the tokenizer run on the written text is computed symbolically; `a>b` refutes the full claim |
| C15 | StyxWriter + format_value + tokenizer + parser + builder; the fragment that is read back (WriteSpec) | the writer produces one of a family of layouts (WriteProofs, induction on values); every layout is a document of the grammar of C50 (RoundProofs, over lexemes built piece by piece in RelexProofs); witnesses for the failing shapes |
| C16 C17 C18 | Value/Object API, TreeBuilder | induction on entries / trees / events |
| C19 C20 | CST parser over the token list, trees as rose trees | fuel bounded by token count; the flattened text is an invariant |
| C21 C22 | CST formatter; plain trees (CstFmtSpec) | every token is read the same wherever its successor allows it (RetokProofs); trees without errors have a regular shape (CstShapeProofs); the formatter writes each shape as a piece that re-tokenizes to its tokens (CstFmtProofs). C22: each shape is written as text whose lexemes follow the grammar of C50 for what the tree shows (FmtLexProofs, FmtRowProofs, FmtReadProofs, FmtNodeProofs); what the tree shows is what the parser read (C57) |
| C23 C24 | extract_schemas, parametric in hash, compressor and utf-8 decoder (universally quantified, not axioms) | magic string has no self overlap; list surgery |
| C25 C37 | file system as a map, operations as small steps with crash after any step | invariant over histories; crash witness refutes the full claims |
| C26 C51 C52 C53 C54 | serializer and deserializer over a deep embedding of serde types (SerdeModel, SerdeSpec) | the written text is lexed piece by piece (SerdeTokens `gives`), the tokens are read back by induction on `evolves` (SerdeProofs), of which the round trip is the diagonal; fuel monotonicity, tokens used, panics and termination by induction (SerdeTotal); witnesses for the failing shapes |
| C27 C28 | schema syntax, validator with fuel | inductive conformance relation; both directions; divergence witness for cyclic type aliases |
| C29 C30 C31 C38 | position arithmetic | induction on the text; emoji and multi-byte blank witnesses |
| C32 C47 C48 C49 | the two highlighting walks over the CST (HiSpec) | induction on trees: the spans of a walk are ranges of leaves, in order (HiProofs, `picks`, `both`), so both sorts change nothing |
| C50 | the grammar of documents over lexemes (GrammarSpec, written from parser.md, without the parser) | completeness by induction on derivations (GrammarProofs `reads`, GrammarRunProofs `doc_runs`), soundness by induction on fuel (GrammarSoundProofs `sound_all`, `doc_found`), tree by induction on derivations (GrammarTreeProofs) |
| C55 | the warnings of the CST (WarnModel), where a node sits (WarnSpec) | induction on trees; witnesses against the parser's duplicates |
| C56 C57 | the CST parser and the event parser, both already modelled; which trees show which documents (AgreeSpec `shows_doc`, without positions), sources with both parsers calm (`calm`) | the lexemes of a source are groups of its tokens (AgreeLex); the CST parser follows every derivation of the grammar of C50 (AgreeSim `simulation`); a tree shows one document only (AgreeUnique) |
| C58 C59 C60 | the facet adapter over the list of events (FacetModel); a grammar of streams (FacetSpec `says`) | event by event (FacetProofs `runs`), induction on documents with the stack of tags; documents lie on characters of the source (FacetDocProofs); the state is only observed through `yields` |
| C61 | the CST formatter, the CST parser and the tokenizer | sources with errors; sources without errors that are tidy (IdemSpec: no heredoc, one value per entry, doc comments before what they document, no line end in an empty object); witnesses for the rest |
| C62 C63 C64 C65 C66 C67 C68 | the editor's functions on trees (EditModel); trees whose places nest (EditSpec `laid`) | the places of every document of the grammar nest, except below dotted keys (EditLayProofs); then induction on trees (EditProofs); the syntax trees of texts without errors start and end objects with their brackets (EditDepthProofs `framed`) |
| C69 C70 | the calls made on the serializer for a value (FacetSerModel `drive`); what a value says (FacetSerSpec `said`); one value of the grammar behind remarks (`gexpr`) | a grammar of written texts (FacetSerReadProofs `lay`): every text of it is read as the value (`layout_rd`), and the writer writes such a text (FacetSerWriteProofs); expression mode by the lemmas on single values of C50 (ExprProofs) |
| C71 C72 C73 | words between separators (GoSpec `pascal_of`); structs and fields for objects (`struct_for`), Go type expressions over declared names (`go_type_text`), the meaning of the conditions (`str_holds`, `int_holds`, `float_holds`) | induction over schemas; the map after each registration is the earlier one and the new declarations as long as names are new (GoProofs `adds`); every type in the map only mentions names in scope (`good`) |
| C74 C75 | which types a type uses (GenSpec `used`), which names a file mentions (`file_names`), which documents are values of a type (`doc_of`, mutual with structs, variants and entries) | the schema of a shape does not depend on the state, whose change is queueing the mentioned types in order (GenProofs `shape_eq`, `definition_eq`); loop invariant: queued = defined or pending, each once (`fits`, `good`); acceptance by mutual induction over `doc_of` (GenProofs2 `docs_accepted`) |
| C76 | which type the value at a path has to be of (LookSpec `typed`, with paths; `checked`, for every way), the fields of a type (SchemaSpec `field`), how well a name fits a word (`rank`), the best of a list (`best_of`) | lookup by induction over `typed` (LookProofs `at_typed`); ending by induction over the path and the accessibility of each schema (`at_ends`, `collect_ends`); choice: the sort is an ordered permutation (`ordered_firstn`) |
| C77 | the value at a place of a document (HoverSpec `lies`), what a schema declares for a place (`below`, `declares`), the part of this that the lookup follows (`clear`), a type in short (`short`), the text (`shown_as`) | the lookup finds it, by induction over `clear`, with enough fuel (HoverProofs `clear_found`); `clear` is a part of `declares` (`clear_declares`) |
| C78 | the keys of a schema block reached through objects only (`key_of`) | the search is sound and complete for these keys (`field_found`); positions by C29 |
| C79 | lines of Go as read by Go: field declarations and struct tags (GoTextSpec `field_decl`, `tag_says`), blocks that stand in the file once (`block`) | from C71 and C72 by going through the lines of the file |
| C80 | what an editor does with a range (ActSpec `in_front`, `applied`: LSP lines end with LF, CR or CRLF, columns are UTF-16 units and clamp) | the editor's positions are unique (`front_unique`); induction over the lines of the text (`last_place`) |
| C81 | the same, with `around` of C67 | the start of a line is the same place for server and editor (`line_start_front`); C67_depth_partial |
| C82 | the same | a prefix's place is the same for both if its last line has no astral characters (`front_of_prefix`) |
| C83 | request sequences (`reached_quietly`), places (`located`) | invariant over the sequence (`shown_inv`) |
| C84 | keys of the root of a document (`root_key`), keys of the schema block (`key_of`) | from `field_found` of C78 and C29 |
| C85 | the errors among the events (WasmSpec `errors_are`), trees of C18 | induction over the rounds; C18's `tree_of` |
| C86 | JSON values that survive (`plain`), maps with distinct keys | nested induction over JSON in both directions (`back`, `forth`); a tag inside a tag is excluded by size (`no_growth`) |
| C87 | JSON values that can be written (`printable`) | C15 and `back` |
| C88 | texts in memory (FfiSpec `stored`), trees of C18 | C18's `tree_of` |
| C89 | equality of trees (`same_tree`), answers to all calls up to a depth (`alike`) | induction over the depth one way, nested induction over values the other way |
| C90 | how tokens are written (PySpec `written`, `lexes`), without the lexer's loops | one lemma per kind of token, induction over what is left of the source |
| C91 | C90's notion of tokens, the Rust printer's scalars | induction over texts per way of writing |
| C92 | how many braces are open (PyParseSpec `balance`) | invariant: consumed and waiting tokens are the front of what the lexer makes; fuel by size of the rest |
| C93 | agreement of a Rust tree and a Python value (PyRoundSpec `agrees`), names of keys in Python | the layouts of C15, with the way scalars are written as a parameter; induction over layouts |
| C94 | what an S-expression shows of a tree (SexpSpec `shown`, `show`, `shown_root`), characters written alike by Rust and Python | the text of what is shown can be cut off in one way only: decimal and hexadecimal numbers, escaped texts and indentations are prefix codes; nested induction |
| C95 | neat trees and documents (PyNeatSpec `neat`, `neat_document`), names of keys | partial correctness of the ten parser functions by one induction on fuel; the names seen so far contain those of the entries; assigned paths are never changed |
| C96 | trees printed alike (PySexpSpec `printed_alike`), parts of a tree with fine texts, `settled` trees | mutual induction over trees; texts, spans and indentations of the two printers are the same strings; invariant of the tree builder for `settled` |
| C97 | trees printed alike (PySexpSpec), texts written alike (JsSexpSpec `written_alike_js`) | mutual induction over trees; no line that is printed consists of white space and `)` up to the end of the text, apart from the last |
| C98 | characters written alike (SexpSpec, PySexpSpec `needs_no_escape`, JsSexpSpec) | the words and numbers before the message need no escapes; induction over the message |
| C33 | two-row dynamic programming | equality with the recursive edit distance, then edit scripts |
| C34 C35 C36 | schema diff, version bump, JSON export | direct; witnesses where false |

## Trusted base

* Coq 8.16.1 kernel (and `vm_compute` for concrete examples).
* Axioms: none. `Print Assumptions` after each theorem in the `Prop*.v` files reports "Closed under the global context"
  (the exceptions, if any, are listed here).
* The hand translation from Rust to Gallina, which each definition's comment documents.

## Not modelled

Derive macros, facet reflection, rowan internals (its tree builder is modelled as an ordinary rose tree),
async scheduling of the LSP server, the network, the fixed parts of the generated Go files, float parsing/printing.

Stack depth: Rust recursion is modelled as unbounded recursion; the code has no depth limit, so a deeply nested source
can overflow the native stack. The theorems do not speak about that.

## What is modelled

| file in /repo | model | left out |
|---|---|---|
| crates/styx-tokenizer/src/tokenizer.rs, token.rs | TokModel.v | |
| crates/styx-parse/src/lexer.rs | LexModel.v | |
| crates/styx-parse/src/parser/mod.rs, events.rs | ParseModel.v | tracing calls; `Cow` (texts are plain strings) |
| crates/styx-tree/src/value.rs, builder.rs, lib.rs | TreeModel.v | constructors and iterators without logic; diagnostic.rs |
| crates/styx-format/src/scalar.rs, writer.rs, value_format.rs, options.rs | FmtModel.v | numbers, bools, chars and bytes (their text is written by Rust's `to_string`); buffer positions are character counts |
| crates/serde_styx/src/de.rs, ser.rs, lib.rs | SerdeModel.v | floats, `deserialize_any` (self-describing, untagged, flattened types), messages; serde's derived code is that of plain structs and enums |
| crates/serde_styx/src/de.rs 107-116, crates/styx-cst/src/ast.rs 461-492 | FmtModel.v | the quoted scalar decoders only |
| crates/styx-embed/src/lib.rs, crates/styx-embed-macros/src/lib.rs (blob builder) | EmbedModel.v | BLAKE3 and lz4_flex (parameters of the model), goblin (its section headers are an input), fat Mach-O files, memory mapping, the macros' token output |
| crates/styx-lsp/src/server.rs 2148-2190, 2983-3043; extensions.rs 374-425; semantic_tokens.rs 131-136, 566-635; crates/facet-styx/src/schema_validate.rs 1-56 | LspModel.v | `u32` ranges (documents below 4 GiB); `to_lowercase` is a parameter; the document store |
| crates/styx-lsp/src/semantic_tokens.rs 7-26, 88-586; crates/styx-cli/src/main.rs 1009-1073 | HiModel.v | the legend (names of token types), whether standard output is a terminal |
| crates/styx-lsp/src/cache.rs, schema_validation.rs 90; crates/styx-cli/src/main.rs 329-407 (in-place mode) | FsModel.v | SHA-256 (parameter), permissions, symbolic links, unsynced data on power failure; parsing, validation and formatting are parameters of the in-place model |
| crates/styx-cli/src/main.rs 1358-1400, 1650-1681, 1804-1984 | CliModel.v | `format!("{:?}")` of odd keys (parameter); messages of the comparison are data, in the order of the entries |
| crates/facet-styx/src/schema_types.rs, schema_validate.rs | SchemaModel.v | floats (parameters `parse_f64`, `f_ltb`), `@documented` wrappers, wording of messages; schemas come from facet's reflection, so the model starts from the Rust data structure; for C34 CompatSpec.v reads schema documents as schema.md describes them |
| crates/styx-cst/src/parser.rs, syntax_kind.rs | CstModel.v | rowan's green tree is an ordinary tree; error messages and their spans are data |
| crates/styx-cst/src/validation.rs, ast.rs 107-119, 151-174, 240-270, 356-371 | WarnModel.v | messages and severity (always a warning) |
| crates/styx-format/src/cst_format.rs, crates/styx-cst/src/ast.rs 121-144, 230-256 | CstFmtModel.v | options other than `indent`, which this formatter does not read |
| crates/facet-styx/src/parser.rs | FacetModel.v | facet's deserializer itself; texts of errors; `parse::<f64>` is a parameter; the events of the inner parser are a list |
| crates/styx-lsp/src/server.rs 1420-1556, 1991-2129, 2215-2283, 3045-3147, 3222-3375; schema_validation.rs 134-165, 310-348, 398-458, 484-605; schema_hints.rs 62-69 | EditModel.v | the document store, schema lookup and the protocol; `u32` casts; the order of `serde_json` maps (insertion order here) |
| crates/facet-styx/src/serializer.rs 180-431, 630-770 | FacetSerModel.v | facet_format's driver is not in the repository: the calls it makes are assumed as stated in the file; numbers are given by their text; keys and docs inside metadata containers (20-164, 448-527), `raw_scalar` |
| crates/styx-gen-go/src/types.rs 7-375, lib.rs 15-25, 53-124, 187-347, 370-390 | GoModel.v | doc comments; the fixed text of validation.go and parse.go; writing the files; `char::to_uppercase` and the printing of floats are parameters |
| crates/facet-styx/src/schema_gen.rs 227-709 | GenModel.v | facet's `Shape` as a small type of shapes and a table of structs and enums; doc comments, the meta block and the running of defaults (32-140) are left out; a root that is not a struct or an enum; a type under the identifier of a struct being generated that is neither struct nor enum |
| crates/styx-lsp/src/schema_validation.rs 350-407, 607-712; server.rs 941-1115, 2809-2840 | LookModel.v | schemas as in SchemaModel.v, hash maps as lists; the fallback for schemas that cannot be read (server.rs 993-996, 2842-2965), the labels and sort keys of the items (1074-1113) and extensions are left out; `to_lowercase` is a parameter |
| crates/styx-lsp/src/server.rs 689-698, 903-937, 2192-2218, 2285-2368, 2412-2691, 2721-2807 | HoverModel.v | the schema's text is given by its tree; the link in a hover text is a parameter; hover on the schema declaration and by extensions (792-901) and the other cases of go-to-definition (676-687, 700-765) are left out |
| crates/styx-lsp/src/server.rs 193-413, 495-606, 1261-1273, 1585-1637, 1639-1723, 1859-1984, 3183-3220 | ActModel.v | documents in a list instead of a HashMap; the schema of a document and the validator's answer for it are given; messages, codes and data of problems, extensions and concurrency left out |
| crates/styx-wasm/src/lib.rs 41-363 | WasmModel.v | texts of messages and the conversion to JavaScript values left out; floats are a type with given `parse`, `is_finite` and `to_string`; JSON text is serde_json's and not modelled |
| crates/styx-ffi/src/lib.rs | FfiModel.v | pointers are what they point to, null is `None`; freeing and wrong use of pointers, texts that are no UTF-8, texts of errors left out |
| implementations/styx-py/styx/lexer.py | PyModel.v | all of it; `str.isupper` and `int(_, 16)` are parameters of the theorems |
| implementations/styx-py/styx/parser.py | PyParseModel.v | spans and texts of errors left out (so is `_heredoc_start_span`); types.py only as the shape of values |
| crates/styx-cli/src/main.rs 551-557, 1208-1353 (`styx tree --format sexp`), implementations/styx-py/styx/compliance.py 22-30 | SexpModel.v | the characters that `{:?}` writes as numbers (a table of Rust's library) are a parameter, its escapes for NUL, tab, CR, LF, quote and backslash are modelled; grapheme extenders count as unprintable. The output for errors (main.rs 558-565) is in ErrSexpModel.v. |
| main.rs 558-565, builder.rs 28-30, compliance.py 96-99, sexp.ts 133-137, Sexp.swift 91-97 | ErrSexpModel.v | the span and the message of an error are given; errors other than `BuildError::Parse` and the line with the name of the file are not modelled |
| implementations/styx-py/styx/compliance.py 33-94 | PySexpModel.v | the trees of types.py are written as Rust trees, the span (-1, -1) as no span; files (102-140) are not modelled |
| implementations/styx-js/src/sexp.ts 1-131 | JsSexpModel.v | trees as in PySexpModel.v, texts as lists of code points; `\s` is a parameter |
| implementations/styx-swift/Sources/Styx/Sexp.swift 75-89 | JsSexpModel.v | escapeString only; the other functions of that file and of the Go printer (cmd/styx-compliance/main.go) are not modelled |

Test records for deliberately wrong models are in `seeded/LOG.jsonl`: each line names the edited definition, the edit,
the claim it breaks, the theorems whose proof depends on a lemma that no longer goes through (`failed`, `lemmas`)
and the theorems tightened afterwards.

## Findings

Each is a theorem ending in `_refuted`.

* C02: `<<EOF` at the end of the input gives an empty error token.
* C03: the lexer panics on `r`, 256 times `#`, `""`, 255 times `#` (the tokenizer's hash count is a saturating `u8`,
  the lexer counts them all). With a longer text there is no panic; the content silently loses as many bytes at its end
  as there are hashes beyond 255 (C03_raw_content_refuted).
* C05: `a 1` newline `{b 2}` (or a doc comment before the brace) leaves the implicit root object open; the tree parser then reports
  an unclosed structure (`C18_sources_partial`).
* C06: `{a 1} b` reports the trailing content after `DocumentEnd`.
* C08: duplicates are missed among dotted keys in braces, between `@t` and `@t@`, and among keys whose escapes differ (see `C08_escaped_refuted`).
* C09: at the root, closed siblings are not remembered (`a.b 1`, `c 2`, `a.b 3` is accepted) and `a.b 1`, `a 2` is accepted.
* C11: `can_be_bare` accepts `a>b`, which reads as an attribute.
* C13: a heredoc without a final line feed gains one; before `)`, `}` or `,` a written heredoc is not closed; a string with all six
  delimiters and a line `TEXT` is cut off. C14 inherits these.
* C15: printing and parsing changes: a scalar under a tag (becomes a one-element sequence); the unit, or anything after a tag without
  payload, in a sequence (no space is written: `(a@)`, `(@a"b")`); heredocs in sequences and one-line objects (never closed), heredocs
  without final line feed; `a>b`; dotted keys at the root; tagged keys with a bare text (`@tx`) or a text with a backslash; a root that
  is no object; equal neighbouring root keys; empty doc comments. Sequences and objects as keys make the printer panic.
* C17: keys with a dot or a bracket and empty keys cannot be reached by a path; index `[0]` finds the key `[0]` of an object.
* C18: of stacked tags (`@a/@b`) only the outermost reaches the tree.
* C39: the CST accessor does not decode `\u` escapes.
* C41: `"\u123"` is accepted. C42: `k "\u{ééééé}"` panics.
* C43: `a.b 1`, `a.c 2` gives two entries `a`; `Document::get("a.c")` finds nothing.
* C23: a schema of 4 GiB or more cannot be extracted (32-bit lengths). C24: a section header whose offset and size wrap around passes the
  range test in `find_elf_section` and then panics (if goblin delivers such a header).
* C30: LSP columns count characters, not UTF-16 units (an emoji counts once). C45: semantic token lengths are byte lengths.
* C38: `get_word_range_at_position` panics after a multi-byte white space character such as U+00A0.
* C44: the conversions for extensions count bytes one way and characters the other way, panic on an offset inside a character,
  and have no offset for an empty last line.
* C25: a schema cache call killed after creating the file leaves an empty (or partial) file which every later call returns as the schema;
  and the file name keeps 64 hash bits, so different contents share a file.
* C37: in-place formatting truncates the file before writing; killed in between, both texts are lost.
* C46: `@schema {id ../.., cli tool}` or an absolute `cli` makes the cache write outside its directory.
* C35: at component 2^64-1 the suggested version wraps to 0 (release build).
* C36: in the JSON export the unit key equals the key `"@"`, and `@t` equals `{$tag t}`; with sorted maps the entry order is lost.
* C27: the validator departs from schema.md: tags on scalars are ignored; patterns are not checked; lengths are bytes; integers beyond
  128 bits are refused; `inf` is a float; a unit is accepted for an optional field; a deprecated optional field is required; `@flatten`
  does not work (its example is rejected); the unit key is the field with the empty name; a map whose key type allows the unit rejects
  the unit key; untagged scalars are accepted as enum values, depending on the order of a hash map; a variant with an optional
  payload rejects the tag alone; an empty `@one-of` list allows everything. The schema of schemas in schema.md uses three of these.
* C28: a type defined as an alias of itself makes validation recurse for ever.
* C34: `compare_schemas` does not look at the types of fields, at bounds, or at definitions without a tag, and does not consider
  catch-alls and untagged enum values.
* C21: the source formatter drops the third atom of a root entry (`a b c` becomes `a b`), an entry that consists of attributes
  (`a>b` becomes the empty document) and everything after the first value.
* C22: a sequence whose only element is a heredoc is put on one line, so the heredoc is no longer closed and a valid document
  becomes invalid. Invalid documents become valid by losing data (`a k>v {x 1}` becomes `a k>v`). On the other documents where the
  parsers agree, formatting keeps the tree (C22_partial).

* C48: the terminal does not colour attribute keys and the editor does not report units in key position or in sequences; in
  `(@t{a 1})` the key `a` is a property for the editor and a string for the terminal. Neither highlights comments inside sequences.
* C49: the semantic token of a heredoc start contains its line end, and quoted and raw scalars of several lines are one token, which
  clients without multilineTokenSupport cut or reject.
* C26: serde_styx does not read back: tuples inside other values (`((1 2) (3 4))` is read as `[(1, 2)]`, since a tuple does not take its
  closing parenthesis), enum values of any shape (`@On` is one token, the deserializer waits for two), 128-bit integers, strings
  of three lines and more (heredocs are not understood), words with `>`, `Some(None)`.
* C51: an unknown field with value `@` at the root swallows the following key (`skip_value` does not look at adjacency); unknown fields with
  tagged values or heredocs are not passed over.
* C54: serde reads documents that the parser refuses (`{a 1`, `{a 1}}`, trailing content) and refuses a heredoc as the value of a string field.
* C55: the editor's duplicate warnings miss keys that the parser refuses as duplicates (`"\u{61}"` and `a`, `a` and `r"a"`, equal tags,
  units, empty keys) and mark a pair that the parser accepts (`r"a"` and `"r\"a\""`).
* C56: the editor reports syntax errors in documents that the parser accepts: a doc comment inside a sequence (`k (/// d` newline `a)`)
  or behind an entry (`k 1 /// d`), attributes inside a sequence (`k (a b>1 c)`), an attribute that directly follows a value (`k a>1b>2`).
  Conversely it shows no error for `a>b`, `(a)`, `a b c`, `{(a) b}` and `k "a""b"`, which the parser rejects.
* C57: in `@t<<E` (heredoc glued to a tag) the syntax tree shows the heredoc as the tag's payload, the parser reads it as the entry's value.
* C58: the facet adapter gives no event at all for an empty document (`{}` gives an empty struct); the written unit `@` is announced by
  `VariantTag(None)` except inside the payload of a tag (`k @t{a @}`), and a lone key `@` is taken for a key with the value `@`.
* C59: savepoints do not nest: after save, save, restore the first place is lost and the second restore does nothing.
* C60: a hint given after the scalar was peeked at does not reach it and stays for the next scalar; numbers beyond 64 bits are delivered as text
  under the 128-bit hints.
* C61: formatting is not idempotent: `k (` newline `{ ` newline `} )` is first broken over lines and then joined; a block after a heredoc, line end and
  comma gets two blank lines first and one the second time. (DEVELOP.md and a property test claim idempotence.)
  In an object, a line comment behind a doc comment gets one more blank line before it with each formatting (third witness of `C61_refuted`).
* C62: an error path with an index (`xs[1]`) is never found, since the index is looked for in an object; a key with a dot is taken for two keys.
* C63: inside a value whose key is not a text (`@ {a 1}`) the path at the cursor leads nowhere; on the value of `a.b 1` there is no path.
* C64: objects inside sequences are not found; completion there offers the fields of the object around the sequence.
* C65: in the outline of `a.b 1` the symbol `b` lies outside the range of its parent `a`.
* C66: reordering is never offered (the root object has no span); filling in fields of an object of several lines writes behind its closing brace, and at the root
  it writes into a quoted text whose last line looks like a comment;
  `[]` is filled in for sequences, `{}` for objects with required fields, and literals without quotes; a field name with a dot is written as it is
  and becomes a path; the declaration inserted for a schema
  without a command is not recognised.
* C67: between `)` or `}` and an opening bracket, and in front of a bracket at the start of the text, the depth is one too large.
* C68: numbers and booleans come back as strings, tags are lost.
* C69: numbers and booleans in a newtype variant become part of its name (`@Port8080`); a text in a variant whose name ends in `r` is read
  as a raw string (`@error"x"` has the tag `erro`); root keys with dots become paths, words with `>` attributes; the name in a key with a
  tag is written without escapes; long texts are written as heredocs, which gain a line feed, and in brackets or behind a tag are not
  accepted; the empty struct gives an empty document and no events.
* C70: in expression mode everything behind the first value is ignored, also unbalanced brackets; a doc comment behind an inner value is
  handed over with the first key.
* C70: compact text is documented as a single line, but a text with one line feed and three more characters to escape becomes a raw string over two
  lines, and a text with two line feeds a heredoc (`C70_one_line_refuted`).
* C71: fields `max-size` and `max_size` become the same Go field, twice in one struct; a type of the schema that is not an object or an
  enum (say a limited integer) is used by name and never declared; a type whose name does not start with a capital is declared under its
  own name and used under another. So the generated Go does not compile in these cases.
* C72: a struct for an inner object is called by the path (`Root` and `server` give `RootServer`); if the schema has a type of that name
  the two share one struct, and if two inner objects meet, which one is kept depends on the order of a hash map.
* C73: limits inside inner objects, references, sequences and maps are never tested (`Validate` does not call itself on them); limits
  under `@deprecated` are dropped; limits outside the range of an i64 are wrapped (at least 2^63 becomes at least -2^63); a field
  `@default(x @deprecated(r @optional(..)))` is reported as missing; messages read `length must be at least 3%!(EXTRA int=3)`, since the
  limit is both in the format and an argument.
* C74: a field of type `Schema`, or of an opaque type whose identifier is not on a fixed list (`DateTime<Utc>`), leaves a reference to a
  type that the file does not define, and the validator then reports every value as of unknown type. From `struct
  Link(Option<Box<Link>>)` comes a definition `Link @optional(@Link)` on which the validator never returns for a scalar (in the code, a
  stack overflow).
* C75: a flattened struct is not merged into its parent (557-648): at that point its schema is a reference, never an object, so the
  branch that merges is dead and the reference becomes the schema of all other keys. Every document of such a type is rejected. The
  test `test_flatten_struct` passes since `name @string` also occurs in the definition of the inner struct. Further rejected documents:
  of two types with the same identifier in different modules, the one generated second; a `u128` of 2^127 or more; a variant around
  `None` or a unit struct, written as the tag alone; all entries of the first of two flattened maps with the same kind of key. In the
  other direction, integer ranges are not in the schema (300 for a `u8`).
* C76: completion proposes nothing in an object whose type is written with @optional, @default or @deprecated, or in a union: the
  lookup stops at the modifier if the path ends there (schema_validation.rs 618-620, 363-396). The same lookup feeds the quick fix
  that fills in required fields. In an object in a sequence, and in one behind the unit key, it proposes the fields of the object
  around it, since the path has no step for these. Flattened fields are not proposed; the name of the flattening entry is. An empty
  `@map()` makes the request panic (667), `A @optional(@A)` overflows the stack. Behind a comma without a space the edit of a
  proposal replaces the value before the comma as well (`{a 1,b` becomes `{a bar `). The type shown for `@one-of(..)` is `@oneof(...)`.
* C77: hover overflows the stack in a field of a recursive enum (`Expr @enum{neg @Expr, ..}` under a map or catch-all; server.rs
  2509-2518 searches the variants with the same path). A name for a name is not followed (2566 resolves one step). A `@map` or an enum
  behind a name is searched as if it were an object: for a key of the map that is also a field of the map's values it shows that field's
  type (2664-2687), for fields of a variant nothing. An entry for all other keys beside named fields is searched for the key instead
  of standing for it (2539-2543). Of variants with a field of the same name the first one's type is shown, whatever tag the document
  has. If the value of a `@default` is an object it is taken for the type. For items of a sequence and flattened fields nothing is shown.
* C78: the branch for a root type `@object{..}` is never taken, since `as_object` also succeeds on tagged objects (2305-2319). So the
  whole schema block is searched from its start and the first key of the name is taken: the root field `port` leads to `port` of an
  inner object written before it, a key of a map leads to a definition of that name. Declarations inside `@optional(..)` and other
  sequences are not found. The link in a hover text has the same faults (910-920).
* C79: field names that start with a digit or contain a blank give struct fields that Go does not accept; if the root of the schema is not an object, parse.go reads
  documents into any struct of the file, and which one depends on the order of a hash map.
* C80: the range of the formatting edit ends in front of the final line break of the text (1891-1893, `lines()` drops it), while the formatted text has one. So formatting a
  text that ends with a line break adds an empty line, and the text never settles: `a 1` with two line breaks gets an edit that changes nothing each time. A lone
  carriage return (inside a quoted text) is a line break for the editor only; the rest of the text is then left behind the formatted one.
* C81: the indentation is inserted in front of the line (1969-1979) without removing what is there; an editor that indents by itself gets it twice.
* C82: columns are characters, so behind an astral character the wrong text is replaced; the proposed name is written without quotes also where it needs them.
* C83: `styx.allowExtension` publishes the problems of all documents anew with `tree_error` None (1620-1630): a document that the parser refuses has no parse error
  any more until it is edited.
* C84: the name under the cursor is looked up in the root of the documents only (3204-3220): from a nested field, the root's key of the same name is given, which is
  another field, and the nested places are missing.
* C85: `validate` says true for `a 1`, line break, `{b 2}`, and `parse` says success, while `to_json` fails: the events do not nest (C05).
* C86: `scalar_json` does not look at the style of a scalar (119-139): a text in quotes that looks like a number, boolean or null is converted, so `zip "01234"` is the
  number 1234 in JSON, and the JSON text `"1"` comes back as the number 1. A tag within a tag, `$value: null` and what stands beside `$tag` are lost (308-327). The keys
  `@` and `"@"` of an object are one key in JSON, so that an entry is lost (156-166).
* C87: `{"k":[1,null]}` is written `k (1@)`, which is the text `1@`; `{"k":{"$tag":"t","$value":1}}` is written `k @t(1)`, which is a tagged array; the key `a.b` becomes
  a path; an array at the root gives a text that is refused.
* C88: a source with a NUL is read up to the NUL without an error.
* C89: texts with a NUL (`"\u{0}a"`) give the null pointer (`CString::new(..).unwrap_or(null_mut())`), like a value that is no scalar: `"\u{0}a"` and `"\u{0}b"` are the same
  for a C program.
* C90 (styx-py): `"\u{}"` raises a ValueError, not a ParseError; `r#a b"#` is read as a raw string although it has no opening quote; `"\u{D800}"` gives a text with
  half a surrogate pair.
* C91: a text of several lines that does not end with a line end, written as a heredoc by Rust, is read by Python with one line end more; a bare word with `>`, which
  the Rust printer writes bare, is three tokens for Python.
* C92: the Python parser does not stop on a document with a `}` too many, e.g. `}`: `_parse_entry_with_path_check` (parser.py 180-181) leaves the brace where it is and
  the loop in `parse` (160-163) goes round for ever. It is proved that it stops on every source in which no brace is closed that was not opened before.
* C93: a word with dots as key of a nested object (`k {a.b 1}`) is the key `a.b` for Rust and a path for Python (parser.py 248-256). `k {"@t" 1, @t 2}` and
  `"x y" 1` with `@t"x y" 2` are read by Rust and refused by Python, which knows both keys under the same name (275-281). A path without a value (`a.b`, line break,
  `c d`) is unit for Rust; Python takes the key of the next line for its value and the value for a key (300-356, 192-201: no check for a line end before `_parse_value`).
* C94: the S-expression does not show the tag of a root that is an object (main.rs 1215, `as_object` does not look at the tag). Rust writes NUL and other
  control characters as `\0` and `\u{7f}`; compliance.py 22-30 leaves them as they are. Equal trees with such a text therefore count as different where
  the outputs of the two implementations are compared (`C94_python_texts` says for exactly which texts).
* C95: attributes are not checked for names that occur twice: `a x>1 x>2` is read by Python as an object with two keys `x` (parser.py 504-550). Python asks for nothing
  between two entries (160-163, 578-585): `a 1 b 2` is two entries for Python and refused by Rust (too many atoms).
* C96: compliance.py never prints the span of a document (89-94) and does not escape names of tags (43, 48); Rust does both. Neither matters for trees that are
  read from a source: there the root has no span and names of tags consist of letters, digits, `_` and `-`.
* C97: the character U+0001 in a text is `\u{1}` in the output of Rust, `\u0001` in that of JavaScript and left as it is by Python (`C97_control_refuted`).
* C98: compliance.py (and the same function in Go) escapes nothing but backslashes in the message of an error (98). The message for an unknown escape sequence
  contains the character behind the backslash (lexer.py 224-227), so for a backslash at the end of a line Python prints an S-expression with a line end in it (`C98_line_end_refuted`).
