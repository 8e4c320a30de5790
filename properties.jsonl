{"id": "C01", "title": "Tokenization is lossless", "statement": "Iterating Tokenizer over any source yields tokens whose texts concatenate to exactly the source; each token's span is contiguous with the previous one, the first starts at 0, the last ends at the source's byte length, and every span's length is the UTF-8 length of the token's text.", "quantifier": "every string of Unicode scalar values", "why_tests_cant": "a test fixes finitely many sources; heredocs, raw strings, escapes and error recovery interact in unboundedly many ways", "anchors": ["crates/styx-tokenizer/src/tokenizer.rs: Tokenizer::next_token, tokenize_*", "crates/styx-tokenizer/src/span.rs: Span"]}
{"id": "C02", "title": "The tokenizer always makes progress and ends", "statement": "Every token other than Eof has non-empty text, the token stream of a source reaches Eof after at most one token per character, and once Eof was returned every later call returns Eof again at the same position.", "quantifier": "every source string and every number of calls", "why_tests_cant": "non-termination on some untested input is invisible to tests", "anchors": ["crates/styx-tokenizer/src/tokenizer.rs: Tokenizer::next_token, impl Iterator for Tokenizer"]}
{"id": "C03", "title": "The lexer never panics and covers the source", "statement": "Running the Lexer over any source terminates with Eof, never indexes a string out of range or off a character boundary, and each lexeme's span lies inside the source.", "quantifier": "every source string", "why_tests_cant": "a slicing panic needs one particular untested input (e.g. 256 hashes)", "anchors": ["crates/styx-parse/src/lexer.rs: Lexer::next_lexeme, dedent_heredoc, process_escapes"]}
{"id": "C04", "title": "Event parsing terminates on every input", "statement": "Calling Parser::next_event repeatedly reaches None after finitely many calls for every source, and keeps returning None afterwards.", "quantifier": "every source string, both document and expression mode", "why_tests_cant": "tests only see the inputs they run", "anchors": ["crates/styx-parse/src/parser/mod.rs: Parser::next_event, advance, parse_atom"]}
{"id": "C05", "title": "Parser events are properly nested", "statement": "In the event sequence of any source, every ObjectStart/SequenceStart/EntryStart/TagStart is closed by its matching end event in LIFO order, so a consumer can build a tree with a stack.", "quantifier": "every source string", "why_tests_cant": "nesting is a global property of unbounded sequences, including error recovery paths", "anchors": ["crates/styx-parse/src/parser/mod.rs: advance_document_root, advance_in_object, emit_*", "crates/styx-tree/src/builder.rs: TreeBuilder::event"]}
{"id": "C06", "title": "Exactly one document frame", "statement": "For every source the event sequence starts with DocumentStart, ends with DocumentEnd, and neither occurs anywhere else.", "quantifier": "every source string in document mode", "why_tests_cant": "quantifies over all inputs", "anchors": ["crates/styx-parse/src/parser/mod.rs: Parser::next_event, advance"]}
{"id": "C07", "title": "Event spans lie in the source", "statement": "Every event produced for a source has a span with start <= end <= source byte length.", "quantifier": "every source string", "why_tests_cant": "diagnostics slice the source with these spans; one bad span on an untested input panics", "anchors": ["crates/styx-parse/src/parser/mod.rs", "crates/styx-tokenizer/src/span.rs"]}
{"id": "C08", "title": "Duplicate keys inside braces are always reported", "statement": "In an object written with braces, a second entry whose key equals an earlier one (same tag and same text after escape processing) produces a DuplicateKey error that points at the first occurrence, and an object with pairwise different keys produces none.", "quantifier": "every list of keys", "why_tests_cant": "needs all key sequences", "anchors": ["crates/styx-parse/src/parser/mod.rs: advance_in_object, parse_object_atom, KeyValue"]}
{"id": "C09", "title": "Dotted paths cannot be reopened", "statement": "At the document root, once a sibling has appeared, assigning below a closed path is reported as an error; a path whose value is terminal cannot be nested into; assigning the same path twice is reported; and paths that respect the rule are accepted.", "quantifier": "every history of path assignments", "why_tests_cant": "the state machine has unboundedly long histories", "anchors": ["crates/styx-parse/src/parser/mod.rs: PathState::check_and_update"]}
{"id": "C10", "title": "Escaping is inverted by reading", "statement": "For every string, quoting it with the serializer's escape function and reading the quoted token back (event parser, lexer, serde) yields the same string.", "quantifier": "every string", "why_tests_cant": "all strings", "anchors": ["crates/styx-format/src/scalar.rs: escape_quoted, unescape_quoted", "crates/styx-parse/src/lexer.rs: process_escapes", "crates/styx-parse/src/parser/mod.rs: unescape_quoted"]}
{"id": "C11", "title": "A string the serializer writes bare reads back as the same scalar", "statement": "Whenever can_be_bare accepts a string, tokenizing that text followed by a separator yields exactly one bare scalar token with that text.", "quantifier": "every string accepted by can_be_bare and every separator context", "why_tests_cant": "all strings", "anchors": ["crates/styx-format/src/scalar.rs: can_be_bare", "crates/styx-tokenizer/src/tokenizer.rs: is_bare_scalar_start, is_bare_scalar_char"]}
{"id": "C12", "title": "Raw strings read back verbatim", "statement": "For every string, writing it as a raw string with the number of hashes the writer picks and lexing it yields the same string.", "quantifier": "every string the writer chooses raw style for", "why_tests_cant": "all strings", "anchors": ["crates/styx-format/src/writer.rs: write_raw_string", "crates/styx-parse/src/lexer.rs: RawScalar handling", "crates/styx-tokenizer/src/tokenizer.rs: tokenize_raw_string"]}
{"id": "C13", "title": "Heredocs read back verbatim", "statement": "For every string the writer emits as heredoc, lexing the emitted text yields the same string.", "quantifier": "every string with enough newlines to select the heredoc style, every context", "why_tests_cant": "all strings and contexts", "anchors": ["crates/styx-format/src/writer.rs: write_heredoc", "crates/styx-parse/src/lexer.rs: dedent_heredoc", "crates/styx-tokenizer/src/tokenizer.rs: tokenize_heredoc_content"]}
{"id": "C14", "title": "Written scalars read back", "statement": "For every string, whatever style StyxWriter::write_string chooses, tokenizing and decoding what it wrote gives the same string.", "quantifier": "every string", "why_tests_cant": "all strings", "anchors": ["crates/styx-format/src/writer.rs: write_scalar, write_string"]}
{"id": "C15", "title": "Serializing a value tree and parsing it gives the same tree", "statement": "For every Value, parsing the text produced by format_value_default gives an equal tree (ignoring spans, scalar kinds).", "quantifier": "every value tree", "why_tests_cant": "unbounded trees and strings", "anchors": ["crates/styx-format/src/value_format.rs: format_value_default", "crates/styx-tree/src/lib.rs: parse"]}
{"id": "C16", "title": "Object behaves as an ordered map", "statement": "After insert(k,v), get(k) returns v, get of other keys is unchanged, the order of existing keys is unchanged, and no key is duplicated by insert.", "quantifier": "every object, every history of inserts, every key", "why_tests_cant": "unbounded histories", "anchors": ["crates/styx-tree/src/value.rs: Object::insert, get, get_mut"]}
{"id": "C17", "title": "Path lookup follows the tree", "statement": "Value::get with a path made of object keys and sequence indices returns exactly the sub-value reached by following these steps, for any depth, and get_mut reaches the same place.", "quantifier": "every tree and every path", "why_tests_cant": "unbounded depth", "anchors": ["crates/styx-tree/src/value.rs: Value::get, split_path"]}
{"id": "C18", "title": "The tree builder reconstructs the document described by the events", "statement": "Feeding TreeBuilder the canonical events of any document gives back exactly that document: entries in order, keys, values, tags, doc comments.", "quantifier": "every document tree", "why_tests_cant": "unbounded trees", "anchors": ["crates/styx-tree/src/builder.rs: TreeBuilder"]}
{"id": "C19", "title": "The CST is lossless", "statement": "For every source, the text of the syntax tree returned by styx_cst::parse is the source itself.", "quantifier": "every source string, also with syntax errors", "why_tests_cant": "all inputs", "anchors": ["crates/styx-cst/src/parser.rs: parse"]}
{"id": "C20", "title": "CST parsing terminates", "statement": "styx_cst::parse returns for every source and consumes every token exactly once.", "quantifier": "every source string", "why_tests_cant": "all inputs, including error recovery", "anchors": ["crates/styx-cst/src/parser.rs: parse_entries, parse_entry, parse_sequence"]}
{"id": "C21", "title": "Formatting keeps every comment and every significant token", "statement": "format_source returns the source unchanged if it has CST errors; otherwise the formatted text contains the same tokens in the same order apart from whitespace, newlines and commas.", "quantifier": "every source string", "why_tests_cant": "all inputs", "anchors": ["crates/styx-format/src/cst_format.rs: format_source, format_cst"]}
{"id": "C22", "title": "Formatted documents parse to the same document", "statement": "If a source parses, format_source(source) parses to the same tree.", "quantifier": "every valid source", "why_tests_cant": "all inputs", "anchors": ["crates/styx-format/src/cst_format.rs"]}
{"id": "C23", "title": "Every embedded schema is found", "statement": "extract_schemas on any byte string that contains a blob built by build_embedded_blob, at any offset and surrounded by any bytes, returns that schema among its results.", "quantifier": "every schema text, all surrounding bytes, every offset", "why_tests_cant": "all byte strings", "anchors": ["crates/styx-embed/src/lib.rs: extract_schemas, find_magic_from, try_extract_v2_at"]}
{"id": "C24", "title": "Only authentic schemas are extracted", "statement": "Every schema returned by extract_schemas occurs in the data as the payload of a blob whose recorded length and hash match the schema's bytes; nothing is returned from corrupted blobs, and extraction never reads outside the data.", "quantifier": "every byte string", "why_tests_cant": "all inputs, adversarial", "anchors": ["crates/styx-embed/src/lib.rs"]}
{"id": "C25", "title": "A cached schema file holds the schema", "statement": "Whenever cache_embedded_schema(name, content) returns a path, the file at that path holds exactly content - for any history of earlier calls, including processes killed between any two file system operations.", "quantifier": "every history of calls and crash points", "why_tests_cant": "crash points between system calls cannot be enumerated by unit tests", "anchors": ["crates/styx-lsp/src/cache.rs: cache_embedded_schema"]}
{"id": "C26", "title": "serde round trip", "statement": "For every value of a supported serde data type, from_str(to_string(v)) returns v.", "quantifier": "every type description and value of it", "why_tests_cant": "all types and values", "anchors": ["crates/serde_styx/src/ser.rs", "crates/serde_styx/src/de.rs"]}
{"id": "C27", "title": "Schema validation decides conformance", "statement": "Validator::validate_document reports no error exactly for the documents that conform to the schema in the declarative sense (required fields, unknown fields, element types, enum variants, ranges).", "quantifier": "every schema and every document", "why_tests_cant": "infinite families of schemas and documents, recursive types", "anchors": ["crates/facet-styx/src/schema_validate.rs: Validator"]}
{"id": "C28", "title": "Schema validation terminates", "statement": "validate returns for every schema and document.", "quantifier": "every schema, including mutually recursive named types", "why_tests_cant": "cyclic type definitions are an infinite family", "anchors": ["crates/facet-styx/src/schema_validate.rs: validate_type_ref"]}
{"id": "C29", "title": "LSP positions and offsets are inverse", "statement": "For every document and every character boundary offset, converting the offset to an LSP position and back gives the offset; conversion is monotone; and positions past the end of a line clamp to the line end.", "quantifier": "every document and offset", "why_tests_cant": "all documents", "anchors": ["crates/styx-lsp/src/server.rs: offset_to_position, position_to_offset"]}
{"id": "C30", "title": "LSP columns are UTF-16 columns", "statement": "The character field of every position sent to the client equals the number of UTF-16 code units between the line start and the position, as the protocol's default encoding requires.", "quantifier": "every document and offset", "why_tests_cant": "all documents", "anchors": ["crates/styx-lsp/src/server.rs: offset_to_position", "crates/styx-lsp/src/semantic_tokens.rs: offset_to_line_col"]}
{"id": "C31", "title": "Semantic token deltas decode to the tokens", "statement": "Decoding the delta-encoded tokens as the LSP client does gives the raw tokens back, and no subtraction underflows.", "quantifier": "every list of tokens sorted by position", "why_tests_cant": "unbounded lists", "anchors": ["crates/styx-lsp/src/semantic_tokens.rs: compute_semantic_tokens, encode_tokens"]}
{"id": "C32", "title": "Highlighting only adds colour codes", "statement": "Removing the inserted colour codes from highlight_styx(source) gives the source.", "quantifier": "every source string", "why_tests_cant": "all inputs", "anchors": ["crates/styx-cli/src/main.rs: highlight_styx", "crates/styx-lsp/src/semantic_tokens.rs: compute_highlight_spans"]}
{"id": "C33", "title": "Suggestions use the true edit distance", "statement": "levenshtein(a,b) is the least number of single-character insertions, deletions and substitutions turning a into b; in particular it is 0 exactly for equal strings, symmetric and satisfies the triangle inequality.", "quantifier": "every pair of strings", "why_tests_cant": "all pairs of strings", "anchors": ["crates/facet-styx/src/schema_validate.rs: levenshtein", "crates/styx-lsp/src/server.rs: levenshtein"]}
{"id": "C34", "title": "A schema change reported as non-breaking is non-breaking", "statement": "If compare_schemas reports no breaking change between a baseline and a new schema, every document valid under the baseline is valid under the new schema.", "quantifier": "every pair of schemas and every document", "why_tests_cant": "all schemas and documents", "anchors": ["crates/styx-cli/src/main.rs: compare_schemas"]}
{"id": "C35", "title": "Suggested versions increase", "statement": "calculate_next_version of a well-formed x.y.z version returns a strictly larger version, bumping the component that semver demands for the class of changes.", "quantifier": "every version and every change set", "why_tests_cant": "all versions", "anchors": ["crates/styx-cli/src/main.rs: calculate_next_version"]}
{"id": "C36", "title": "JSON export keeps documents apart", "statement": "Two trees that differ (ignoring spans, scalar kinds and doc comments) are exported to different JSON.", "quantifier": "every pair of trees", "why_tests_cant": "all pairs", "anchors": ["crates/styx-cli/src/main.rs: value_to_json, payload_to_json"]}
{"id": "C37", "title": "In-place formatting never destroys the file", "statement": "At every crash point of styx --in-place the file on disk holds either the old or the new text.", "quantifier": "every document and crash point", "why_tests_cant": "crash points", "anchors": ["crates/styx-cli/src/main.rs: run_file_mode"]}
{"id": "C38", "title": "Editor requests never panic on odd positions", "statement": "get_word_range_at_position returns for every document and every position.", "quantifier": "every document and cursor position", "why_tests_cant": "all documents, including multi-byte whitespace", "anchors": ["crates/styx-lsp/src/server.rs: get_word_range_at_position"]}
{"id": "C39", "title": "All unescapers agree", "statement": "The lexer, the event parser, the serde deserializer and the CST accessor decode every quoted scalar that the parser accepts without an escape error to the same string.", "quantifier": "every quoted scalar", "why_tests_cant": "all strings", "anchors": ["crates/styx-parse/src/lexer.rs: process_escapes", "crates/styx-parse/src/parser/mod.rs: unescape_quoted", "crates/styx-format/src/scalar.rs: unescape_quoted", "crates/styx-cst/src/ast.rs: unescape_quoted"]}
{"id": "C40", "title": "Heredoc dedent strips exactly the closing indentation", "statement": "Dedenting removes from every line at most the closing delimiter's indentation, never removes a non-blank character, keeps the number of lines, and does nothing when the closing delimiter is not indented.", "quantifier": "every heredoc body and indentation", "why_tests_cant": "all strings", "anchors": ["crates/styx-parse/src/lexer.rs: dedent_heredoc"]}
{"id": "C41", "title": "Invalid escapes are always reported", "statement": "For every source, a quoted scalar that is used as a key or value and whose text has no decoding under the escape grammar (\\\\, \\\", \\n, \\r, \\t, \\uXXXX, \\u{X..}) makes the parser emit an InvalidEscape error, and a text that has a decoding makes it emit none.", "quantifier": "all sources, all quoted texts", "why_tests_cant": "The lexer decodes with one set of rules and the parser re-validates the rejected text with a second hand-written scanner; agreement of the two is a claim about every escape sequence in every position, not about samples.", "anchors": ["crates/styx-parse/src/parser/mod.rs: validate_escapes, emit_escape_errors", "crates/styx-parse/src/lexer.rs: process_escapes"]}
{"id": "C42", "title": "The event parser never panics", "statement": "For every source, constructing a Parser and calling next_event until it returns None never panics.", "quantifier": "all sources", "why_tests_cant": "Panics hide in slices at byte offsets computed from the text (for instance 12 bytes after a backslash); only multi-byte text placed at exactly these offsets triggers them.", "anchors": ["crates/styx-parse/src/parser/mod.rs: validate_escapes, heredoc_start_span, parse_atom, LexemeSource::stash"]}
{"id": "C43", "title": "Dotted entries are visible in the tree", "statement": "For every accepted document, Document::get with the dotted text of a key returns the value written at that key.", "quantifier": "every accepted document and every key in it", "why_tests_cant": "unbounded documents and path structures", "anchors": ["crates/styx-tree/src/lib.rs: Document::get", "crates/styx-tree/src/builder.rs: TreeBuilder", "crates/styx-parse/src/parser/mod.rs: emit_dotted_path_entry"]}
{"id": "C44", "title": "Extensions see the server's positions", "statement": "The offset/position conversions that the server offers to extensions give, for every document, the same results as the server's own conversions, and are inverse to each other.", "quantifier": "every document, offset and position", "why_tests_cant": "the two copies differ only on particular characters and places (multi-byte characters, an empty last line); tests sample a few documents", "anchors": ["crates/styx-lsp/src/extensions.rs: offset_to_position, position_to_offset", "crates/styx-lsp/src/server.rs: offset_to_position, position_to_offset"]}
{"id": "C45", "title": "Semantic token lengths are UTF-16 lengths", "statement": "The length field of every semantic token equals the number of UTF-16 code units of the token's text, as the protocol requires.", "quantifier": "every document and token", "why_tests_cant": "wrong only for texts with particular characters; every document would have to be tried", "anchors": ["crates/styx-lsp/src/semantic_tokens.rs: add_token_from_syntax"]}
{"id": "C46", "title": "Cached schema files lie in the cache directory", "statement": "For every tool name and schema id a document can name in its @schema declaration, the file that cache_embedded_schema writes lies below the cache directory.", "quantifier": "every tool name and schema id", "why_tests_cant": "the names come from untrusted documents; tests try friendly names only", "anchors": ["crates/styx-lsp/src/cache.rs: embedded_cache_path", "crates/styx-lsp/src/schema_validation.rs: to_uri"]}
{"id": "C47", "title": "Semantic tokens are tokens of the source", "statement": "What an editor decodes from compute_semantic_tokens is, in the order of the source and none twice, tokens of the source at their line and column, with their byte length and a type and modifiers that fit their kind; nothing panics.", "quantifier": "every source string, with or without syntax errors", "why_tests_cant": "unbounded nesting of sequences, tags and objects; the tests check a few documents", "anchors": ["crates/styx-lsp/src/semantic_tokens.rs: compute_semantic_tokens, walk_node, collect_key_tokens, collect_key_tokens_as_values"]}
{"id": "C48", "title": "Terminal and editor highlight alike", "statement": "highlight_styx colours exactly the tokens that compute_semantic_tokens reports, with the colour of the reported type, and the texts of heredocs, which editors leave to language injection.", "quantifier": "every source string", "why_tests_cant": "two hand-written walks over the same tree have to agree on every tree", "anchors": ["crates/styx-lsp/src/semantic_tokens.rs: walk_node, walk_node_for_spans", "crates/styx-cli/src/main.rs: highlight_styx"]}
{"id": "C49", "title": "Semantic tokens do not span lines", "statement": "No reported semantic token contains a line end, since clients need not support tokens of several lines.", "quantifier": "every source string and token", "why_tests_cant": "holds for most kinds of tokens and documents", "anchors": ["crates/styx-lsp/src/semantic_tokens.rs: add_token_from_syntax"]}
{"id": "C50", "title": "The parser accepts exactly the grammar", "statement": "A source is accepted (no error event, properly nested events; equivalently the tree parser succeeds) exactly if its lexemes form a document of the grammar of parser.md as written in GrammarSpec.v; the events and the tree are then the ones the grammar gives, and the grammar is unambiguous.", "quantifier": "every source string in which no quoted text that the lexer refuses, and no decoded quoted text, contains a backslash followed by u (for those the parser's second look at escapes is wrong, C41, C42)", "why_tests_cant": "both directions quantify over all documents: no valid document is refused and no invalid one accepted", "anchors": ["crates/styx-parse/src/parser/mod.rs", "crates/styx-tree/src/builder.rs", "docs/content/reference/spec/parser.md"]}
{"id": "C51", "title": "serde reads documents of other versions of a type", "statement": "What to_string wrote from a value of one version of a type can be read with another version that knows fewer fields, has further optional fields, made a field optional or changed the width of an integer, and gives the value that agrees with the written one in all that both know.", "quantifier": "every value, pair of versions and format options", "why_tests_cant": "unknown fields may hold any value, each of which has to be passed over token by token", "anchors": ["crates/serde_styx/src/de.rs: skip_value, StyxMapAccess", "crates/serde_styx/src/ser.rs"]}
{"id": "C52", "title": "serde's from_str never panics", "statement": "from_str returns a value or an error for every input text and every type; none of its slices is out of range.", "quantifier": "every source string and type", "why_tests_cant": "all source strings, including malformed ones", "anchors": ["crates/serde_styx/src/de.rs"]}
{"id": "C53", "title": "serde's from_str ends", "statement": "Reading ends on every input for every type, also recursive ones, that is not an option, newtype or map key of itself without end.", "quantifier": "every source string and type", "why_tests_cant": "termination is about all inputs, in particular unclosed ones", "anchors": ["crates/serde_styx/src/de.rs"]}
{"id": "C54", "title": "serde and the parser agree on documents", "statement": "from_str accepts only documents that the parser accepts, and delivers the values that the tree of the document has.", "quantifier": "every source string", "why_tests_cant": "two independent readers have to agree on all documents", "anchors": ["crates/serde_styx/src/de.rs", "crates/styx-parse/src/parser/mod.rs"]}
{"id": "C55", "title": "the editor's warnings are where they belong", "statement": "A key is marked as a duplicate if and only if an earlier entry of the same document or object has the same key, with the range of the key; an object is marked as having mixed separators if and only if it has commas and line ends of its own, with the range of the object. The duplicates are those the parser reports.", "quantifier": "every syntax tree", "why_tests_cant": "an equivalence over all trees, with every position; nested objects and earlier entries can be arranged in unboundedly many ways", "anchors": ["crates/styx-cst/src/validation.rs", "crates/styx-cst/src/ast.rs"]}
{"id": "C56", "title": "the editor raises no false alarm", "statement": "The syntax tree of a document that the parser accepts has no errors.", "quantifier": "every source string", "why_tests_cant": "two independently written parsers have to agree on an infinite language", "anchors": ["crates/styx-cst/src/parser.rs", "crates/styx-parse/src/parser/mod.rs", "crates/styx-parse/src/lexer.rs"]}
{"id": "C57", "title": "the syntax tree shows what the parser reads", "statement": "The syntax tree of an accepted document determines, up to places, the keys, values, tags, attributes, scalar contents and doc comments, and they are those of the tree that the parser delivers.", "quantifier": "every accepted source string", "why_tests_cant": "a relation between the results of two parsers over all documents and nestings", "anchors": ["crates/styx-cst/src/parser.rs", "crates/styx-parse/src/parser/mod.rs", "crates/styx-tree/src/builder.rs"]}
{"id": "C58", "title": "facet is told what the document says", "statement": "For every accepted document the event stream handed to facet's deserializer says the document: its keys with tags and doc comments, texts, units, sequences, objects and tags, in order, without the @schema entries of the root. The stream determines what it says. A source with a syntax error is never read to its end without the error.", "quantifier": "every source string", "why_tests_cant": "the adapter keeps a stack of tags, a depth, pending docs and a queue; nestings of tags, units and schema entries are unbounded", "anchors": ["crates/facet-styx/src/parser.rs"]}
{"id": "C59", "title": "looking ahead, skipping and going back", "statement": "peek_event returns the next event and changes nothing about what follows; skip_value passes over exactly one value; restore returns to the saved parser, also when savepoints are nested.", "quantifier": "every state of the adapter and everything a deserializer can do", "why_tests_cant": "quantifies over all parser states, values and histories of calls", "anchors": ["crates/facet-styx/src/parser.rs"]}
{"id": "C60", "title": "hints give scalars their type", "statement": "A scalar asked for with a type hint is delivered as the value its text has in that type, and as its text if it has none; the hint affects that scalar only.", "quantifier": "every scalar text, hint and parser state", "why_tests_cant": "an equivalence over all texts and all integer ranges, and over all orders of calls", "anchors": ["crates/facet-styx/src/parser.rs"]}
{"id": "C61", "title": "formatting is idempotent", "statement": "Formatting the output of the formatter changes nothing.", "quantifier": "every source string", "why_tests_cant": "layout decisions depend on the layout of the input; all nestings, comments and blank lines interact", "anchors": ["crates/styx-format/src/cst_format.rs", "DEVELOP.md"]}
{"id": "C62", "title": "error paths lead to the values", "statement": "The path in a validation error leads the editor to the value it names: the value found by going along the path's keys and indices.", "quantifier": "every tree and every path", "why_tests_cant": "paths and trees of any depth; keys are arbitrary texts", "anchors": ["crates/styx-lsp/src/schema_validation.rs", "crates/facet-styx/src/schema_validate.rs"]}
{"id": "C63", "title": "the path at the cursor", "statement": "The path the editor finds for a cursor is that of the innermost key or value under the cursor, and there is none exactly if no key or value is under it.", "quantifier": "every accepted document and every cursor", "why_tests_cant": "an exact characterisation over all nestings and offsets; depends on the places of all values, which are proved to nest", "anchors": ["crates/styx-lsp/src/server.rs"]}
{"id": "C64", "title": "the object at the cursor", "statement": "Completion and quick fixes work on the smallest object that the cursor touches, with its path.", "quantifier": "every accepted document and every cursor", "why_tests_cant": "minimality over all objects of all documents", "anchors": ["crates/styx-lsp/src/schema_validation.rs"]}
{"id": "C65", "title": "document symbols", "statement": "Computing the outline never panics; there is one symbol for each text key, nested like the objects and in order; a symbol's range contains its selection range and the ranges of its children, and siblings do not overlap.", "quantifier": "every accepted document", "why_tests_cant": "ranges come from byte slices and positions of arbitrary texts", "anchors": ["crates/styx-lsp/src/server.rs"]}
{"id": "C66", "title": "quick fixes do what they say", "statement": "Filling in required fields makes the object have them with values that satisfy the schema; reordering is offered when fields are out of order; an inserted schema declaration is recognised.", "quantifier": "every accepted document and every schema", "why_tests_cant": "quantifies over documents, schemas and cursors", "anchors": ["crates/styx-lsp/src/server.rs", "crates/styx-lsp/src/schema_validation.rs", "crates/styx-lsp/src/schema_hints.rs"]}
{"id": "C67", "title": "indentation while typing", "statement": "The nesting depth used for indentation is the number of objects and sequences around the cursor.", "quantifier": "every source without syntax errors and every offset", "why_tests_cant": "all trees and all offsets, in particular those between two tokens", "anchors": ["crates/styx-lsp/src/server.rs"]}
{"id": "C68", "title": "extension data survive the trip through JSON", "statement": "Data that an extension sends as JSON come back unchanged when they are turned into a document value and back.", "quantifier": "every JSON value", "why_tests_cant": "all nestings and keys", "anchors": ["crates/styx-lsp/src/server.rs"]}
{"id": "C69", "title": "facet's serializer is read back", "statement": "The text that facet's serializer writes for a struct is accepted, and the stream of events it is read back as says what the struct says: keys with tags and doc comments, texts, numbers, lists, variants, in order.", "quantifier": "every value, with every choice of writer options", "why_tests_cant": "values nest without bound, and texts, keys and names are arbitrary", "anchors": ["crates/facet-styx/src/serializer.rs", "crates/styx-format/src/writer.rs", "crates/facet-styx/src/parser.rs"]}
{"id": "C70", "title": "expressions", "statement": "In expression mode the parser accepts exactly one value of the grammar and returns its events; the adapter's stream says what the value says; the compact text of every value is read back in this mode.", "quantifier": "every source; every value", "why_tests_cant": "an equivalence over all texts, against a grammar", "anchors": ["crates/styx-parse/src/parser/mod.rs", "crates/facet-styx/src/parser.rs", "crates/facet-styx/src/serializer.rs"]}
{"id": "C71", "title": "generated Go names", "statement": "The Go generator turns the names of a schema into exported Go identifiers, different names into different ones, and every type it gives to a field is a Go type made of built-in types and types that it declares.", "quantifier": "every schema file", "why_tests_cant": "names are arbitrary texts and schemas nest without bound; the clashes need particular names", "anchors": ["crates/styx-gen-go/src/types.rs", "crates/styx-gen-go/src/lib.rs"]}
{"id": "C72", "title": "generated Go structs", "statement": "Every object of a schema, named or inside another one, has a struct with one field per named field, in order, under its own name and with its type and optional flag; enums have their variants; nothing else is declared, and the order in which the map of types is gone through does not matter.", "quantifier": "every schema file, every order of the map", "why_tests_cant": "a hash map is gone through in an order that differs from run to run", "anchors": ["crates/styx-gen-go/src/types.rs", "crates/styx-gen-go/src/lib.rs"]}
{"id": "C73", "title": "generated Go tests", "statement": "The tests that the generated Validate makes on a field with limits hold exactly when the schema validator reports the value; the tests of an optional field look through the pointer and only when it is set.", "quantifier": "every schema, every value", "why_tests_cant": "an equivalence between two programs over all limits and values", "anchors": ["crates/styx-gen-go/src/types.rs", "crates/styx-gen-go/src/lib.rs", "crates/facet-styx/src/schema_validate.rs"]}
{"id": "C74", "title": "generated schemas are complete", "statement": "Generating a schema from a Rust type ends for every set of types, recursive ones included; the file defines exactly the structs and enums that the root uses, each once, and every name in it is defined there.", "quantifier": "every table of types, every root", "why_tests_cant": "type graphs are arbitrary and cyclic; termination cannot be tested", "anchors": ["crates/facet-styx/src/schema_gen.rs"]}
{"id": "C75", "title": "documents of a type fit its schema", "statement": "Under the schema generated from a Rust type, the validator ends on every document of a value of that type and reports no error.", "quantifier": "every table of types, every value of every type", "why_tests_cant": "relates all values of all types to a generated schema; the library's own tests look for fragments of the generated text and miss where the fragment stands", "anchors": ["crates/facet-styx/src/schema_gen.rs", "crates/facet-styx/src/schema_validate.rs"]}
{"id": "C76", "title": "completion proposes the fields of the object at the cursor", "statement": "At every cursor of a document with a schema, completion answers with the fields that the type of the object at the cursor has and the object has not, each with its type, and of more than fifty with those that fit the word typed best; accepting one does not change other entries.", "quantifier": "every schema, document, cursor and word", "why_tests_cant": "schemas are recursive and documents arbitrary; the tests look at one path through an enum and two through maps", "anchors": ["crates/styx-lsp/src/schema_validation.rs", "crates/styx-lsp/src/server.rs"]}
{"id": "C77", "title": "hover shows what the schema declares for the field under the cursor", "statement": "For every document, schema and cursor, if the schema declares a type for the place under the cursor, hover answers with that type in short, the field's documentation and the path from the root.", "quantifier": "every schema, document and cursor", "why_tests_cant": "schemas nest references, modifiers, maps, sequences and enums without limit; the tests try a dozen hand-written pairs", "anchors": ["crates/styx-lsp/src/server.rs"]}
{"id": "C78", "title": "go-to-definition goes to the key of the field's declaration", "statement": "For every document, schema and cursor on a field, go-to-definition answers with the range, in the schema's text, of the key of that field's declaration, and with nothing if the field has none.", "quantifier": "every schema, document and cursor", "why_tests_cant": "field names repeat in nested types of arbitrary schemas; the tests use schemas in which each name occurs once", "anchors": ["crates/styx-lsp/src/server.rs"]}
{"id": "C79", "title": "types.go says what the schema says", "statement": "In the generated types.go every object of the schema has one struct with a line per named field that is a Go field declaration whose tags give the name of the schema and whether the field can be left out, every enum has one block of constants with the names of the variants as values, and parse.go reads into the struct of the root.", "quantifier": "every schema, every order of the map of types", "why_tests_cant": "quantifies over schemas and over the iteration order of a hash map", "anchors": ["crates/styx-gen-go/src/lib.rs", "crates/styx-gen-go/src/types.rs"]}
{"id": "C80", "title": "the formatting edit gives the formatted text", "statement": "For every open document that was read, the edit that the server sends for a formatting request turns the editor's text into the text that the formatter gives; and no edit is sent exactly if that is the text already.", "quantifier": "every text and indentation", "why_tests_cant": "quantifies over all texts, with all kinds of line ends; what an editor does with a range is not part of the server's tests", "anchors": ["crates/styx-lsp/src/server.rs"]}
{"id": "C81", "title": "after a line break the line is indented by its depth", "statement": "For every text without syntax errors and every line, the edit sent after a line break leaves that line indented by exactly one unit for each object and sequence around the cursor.", "quantifier": "every text, position and indentation", "why_tests_cant": "nesting is unbounded and the line can already have any indentation", "anchors": ["crates/styx-lsp/src/server.rs"]}
{"id": "C82", "title": "the edit for a misspelt field replaces exactly its name", "statement": "For every text and every unknown field, the edit of the quick fix replaces the field's name by the proposed one and leaves everything else as it is.", "quantifier": "every text, span and proposed name", "why_tests_cant": "quantifies over what stands in front of the name, including characters of several bytes or units", "anchors": ["crates/styx-lsp/src/server.rs"]}
{"id": "C83", "title": "the problems shown are those of the text", "statement": "After any sequence of requests, the problems shown for a document are those of its current text: an error at the place of the refusal if the parser refuses it, one for each error of the validator, none if there is nothing wrong, and nothing for documents that are not open.", "quantifier": "every sequence of requests and every text", "why_tests_cant": "an invariant over request sequences of any length", "anchors": ["crates/styx-lsp/src/server.rs"]}
{"id": "C84", "title": "references are the places of the field", "statement": "For every field under the cursor, the search for references gives the key of its declaration in the schema and the places of that field in all open documents with that schema, and nothing else.", "quantifier": "every set of open documents, schema and cursor", "why_tests_cant": "quantifies over sets of documents and nested fields; the tests use a single document", "anchors": ["crates/styx-lsp/src/server.rs"]}
{"id": "C85", "title": "the checks of the JavaScript bindings agree", "statement": "For every source that the parser reads to its end, the diagnostics of `parse` are exactly the errors of the parser, in order and inside the source; `validate` says true exactly if there are none; and that is so exactly if the source has a tree, so that `to_json` can convert it.", "quantifier": "every source", "why_tests_cant": "three functions that go through the events on their own have to agree on all sources", "anchors": ["crates/styx-wasm/src/lib.rs"]}
{"id": "C86", "title": "JSON as a Styx value is the same JSON", "statement": "For every JSON value, converting it to a Styx value and back gives the same JSON.", "quantifier": "every JSON value, with any parsing and printing of floats", "why_tests_cant": "values are nested without bound; texts that look like numbers are found by chance only", "anchors": ["crates/styx-wasm/src/lib.rs"]}
{"id": "C87", "title": "JSON as a Styx text is the same JSON", "statement": "For every JSON object, the text that `from_json` writes is read by `to_json` as the same object.", "quantifier": "every JSON object, with any parsing and printing of floats", "why_tests_cant": "goes through printer, lexer, parser and tree builder; nested without bound", "anchors": ["crates/styx-wasm/src/lib.rs"]}
{"id": "C88", "title": "the C bindings read what the tree parser reads", "statement": "For every text in memory, `styx_parse` gives a document exactly if the text has a tree, its root is the root of that tree, and what follows the text in memory does not matter; null pointers are refused by all functions.", "quantifier": "every text and whatever follows it in memory", "why_tests_cant": "quantifies over all texts and all memory contents behind them", "anchors": ["crates/styx-ffi/src/lib.rs"]}
{"id": "C89", "title": "a C program sees the whole tree and nothing else", "statement": "Two values can be told apart by calls of the C functions, however many, exactly if their trees differ in a tag, a text, a key or their shape; and the value for a key is the one at the first place with that key.", "quantifier": "every pair of values and every program", "why_tests_cant": "programs make any number of calls; values are nested without bound", "anchors": ["crates/styx-ffi/src/lib.rs"]}
{"id": "C90", "title": "the Python lexer reads the whole source", "statement": "For every source the Python lexer stops; its tokens with the blanks, line ends and comments between them are the whole source, every token is written as its kind demands and has the text and the span that this stands for; or it raises a ParseError that points to the place where no token can be read.", "quantifier": "every source, every behaviour of isupper and int(_, 16) of Python", "why_tests_cant": "sources are unbounded", "anchors": ["implementations/styx-py/styx/lexer.py"]}
{"id": "C91", "title": "Python reads the scalars that Rust writes", "statement": "Every scalar written by the Rust printer is one token with the same text for the Python lexer.", "quantifier": "every text, all printer options, whatever stands before and after", "why_tests_cant": "two implementations in different languages, all texts", "anchors": ["implementations/styx-py/styx/lexer.py", "crates/styx-format/src/scalar.rs"]}
{"id": "C92", "title": "the Python parser stops", "statement": "For every source the Python parser returns a document or raises an error.", "quantifier": "every source", "why_tests_cant": "no test shows that a loop ends for all sources", "anchors": ["implementations/styx-py/styx/parser.py"]}
{"id": "C93", "title": "Python reads the documents that Rust writes as the same tree", "statement": "For every value tree, the text written by the Rust printer is read by the Python parser as the same tree as by the Rust parser: the same tags, keys, elements and texts in the same order.", "quantifier": "every value tree, all printer options, every behaviour of isupper and int(_, 16) of Python beyond ASCII", "why_tests_cant": "two implementations in different languages, unbounded trees and texts", "anchors": ["implementations/styx-py/styx/parser.py", "crates/styx-format/src/value_format.rs: format_value", "crates/styx-tree/src/lib.rs: parse"]}
{"id": "C94", "title": "The S-expressions in which implementations are compared are faithful", "statement": "`styx tree --format sexp` prints the same text for two trees exactly if their tags, keys, values, elements, texts, kinds of scalars and shown spans are the same; no S-expression is the beginning of another one; texts are written as by the Python implementation exactly if they have no NUL and no character that Rust writes as a number.", "quantifier": "every pair of value trees, every file name, every table of unprintable characters", "why_tests_cant": "a collision of two trees in the output would hide a difference between implementations; it needs a pair of trees that no test thinks of, for example a text that looks like the end of a node", "anchors": ["crates/styx-cli/src/main.rs:551-557", "crates/styx-cli/src/main.rs:1208-1353", "implementations/styx-py/styx/compliance.py:22-30"]}
{"id": "C95", "title": "The Python parser returns neat trees only", "statement": "Whatever the source, in the tree returned by the Python parser no object has a name twice (apart from attributes), no key is a heredoc, a sequence or an object, no bare scalar stands behind a tag, and a name is repeated at the top of the document only if all its values are objects.", "quantifier": "every source, every fuel, every behaviour of isupper and int(_, 16) of Python beyond ASCII", "why_tests_cant": "the names of an object are collected over all its entries, the paths of a document over all its lines; both are unbounded", "anchors": ["implementations/styx-py/styx/parser.py:31-76", "implementations/styx-py/styx/parser.py:119-291", "implementations/styx-py/styx/parser.py:300-447", "implementations/styx-py/styx/parser.py:504-612"]}
{"id": "C96", "title": "Python prints the S-expressions of Rust", "statement": "For the same tree, compliance.py prints the text that `styx tree --format sexp` prints, if every text is written alike, names of tags need no escapes and values without tag stand where their payloads stand; so equal outputs mean that the same is shown of both trees. In every tree that Rust reads from a source, values without tag stand where their payloads stand.", "quantifier": "every list of entries, every source, every table of unprintable characters", "why_tests_cant": "the two printers lay out nested nodes in different ways (appending line by line against joining strings); that they agree on trees of any depth is not checked by examples", "anchors": ["implementations/styx-py/styx/compliance.py:22-94", "crates/styx-cli/src/main.rs:1208-1353", "crates/styx-tree/src/builder.rs:89-534"]}
{"id": "C97", "title": "JavaScript prints the S-expressions of Rust", "statement": "For the same tree, sexp.ts prints the text that `styx tree --format sexp` and compliance.py print, if every text is written alike, names of tags need no escapes and values without tag stand where their payloads stand; a text is written as by Rust exactly if it has no character that either writes as a number. Swift writes texts as Python does.", "quantifier": "every list of entries, every text, every table of unprintable characters that contains the control characters, every set of white space with the blank and without `)`", "why_tests_cant": "sexp.ts closes sequences by a regular expression over the text printed so far, which contains the texts of the document; that it hits nothing but the last line must hold for texts and trees of any size", "anchors": ["implementations/styx-js/src/sexp.ts:1-131", "implementations/styx-swift/Sources/Styx/Sexp.swift:75-89", "implementations/styx-py/styx/compliance.py:22-94", "crates/styx-cli/src/main.rs:1208-1353"]}
{"id": "C98", "title": "The lines for errors are the same exactly if the messages are written alike", "statement": "For the same span and message, the line for an error printed by Python (and Go) is that of Rust exactly if Rust escapes nothing in the message but backslashes; that of JavaScript exactly if no character of the message is written as a number by either; that of Swift exactly if none is by Rust.", "quantifier": "every span, every message, every table of unprintable characters without the printable ASCII ones", "why_tests_cant": "messages contain characters and paths of the source; examples show a few messages, not which ones are written alike", "anchors": ["crates/styx-cli/src/main.rs:558-565", "crates/styx-tree/src/builder.rs:22-33", "implementations/styx-py/styx/compliance.py:96-99", "implementations/styx-js/src/sexp.ts:133-137", "implementations/styx-swift/Sources/Styx/Sexp.swift:75-97", "implementations/styx-go/cmd/styx-compliance/main.go:169-172"]}
