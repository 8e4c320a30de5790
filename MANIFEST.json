{
 "claims": [
  {
   "property": "C01",
   "status": "proved",
   "theorems": [
    "C01_tokens_lossless",
    "C01_any_fuel"
   ],
   "note": ""
  },
  {
   "property": "C02",
   "status": "partial",
   "theorems": [
    "C02_nonempty_tokens_refuted",
    "C02_progress_partial",
    "C02_eof_stable"
   ],
   "note": "Full claim is false: '<<EOF' at end of input yields an empty error token. Everything else is proved."
  },
  {
   "property": "C03",
   "status": "partial",
   "theorems": [
    "C03_no_panic_refuted",
    "C03_raw_content_refuted",
    "C03_every_source",
    "C03_before_panic",
    "C03_lexemes_total_partial"
   ],
   "note": "False for 256 or more consecutive hashes: a panic witness, and a raw string that loses its end. C03_every_source says for every source what happens: it stops, panics only at a raw scalar with more than 255 hashes whose text is too short, and otherwise spans are ordered and in range, contents decoded per an independent escape/heredoc specification, only blanks between lexemes."
  },
  {
   "property": "C04",
   "status": "partial",
   "theorems": [
    "C04_parser_stops_partial",
    "C42_no_panic_refuted",
    "C03_no_panic_refuted"
   ],
   "note": "None for ever after finitely many calls, for document and expression parsers and every source, unless a call panics: the lexer (C03) or, only with backslash-u in the source, the parser (C42); a panic ends the run. The panics are what makes the full statement false."
  },
  {
   "property": "C05",
   "status": "partial",
   "theorems": [
    "C05_balanced_refuted",
    "C05_doc_comment_refuted",
    "C05_nested_partial",
    "C05_always_nested"
   ],
   "note": "False in general: braces after the first root entry (or after a doc comment) leave the implicit root object open. Proved for every source: proper nesting after every call, empty final stack except exactly in that situation."
  },
  {
   "property": "C06",
   "status": "partial",
   "theorems": [
    "C06_last_event_refuted",
    "C06_document_frame_partial"
   ],
   "note": "False in general: TrailingContent is emitted after DocumentEnd. Proved: one DocumentStart first, one DocumentEnd, after it at most one TrailingContent error."
  },
  {
   "property": "C07",
   "status": "proved",
   "theorems": [
    "C07_event_spans",
    "C07_document_spans",
    "C07_characters"
   ],
   "note": "Every source, document and expression mode, every number of calls, also before a panic. On accepted documents (clear_escapes) both ends also lie between characters."
  },
  {
   "property": "C08",
   "status": "partial",
   "theorems": [
    "C08_same_key_refuted",
    "C08_dotted_refuted",
    "C08_escaped_refuted",
    "C08_duplicates_partial"
   ],
   "note": "The full statement is false: three refutations (unit-payload tag keys, dotted keys, keys with undecodable unicode escapes). C08_duplicates_partial: inside braces and for the remaining plain keys the reports are exactly the repeated keys, each naming the first occurrence."
  },
  {
   "property": "C09",
   "status": "partial",
   "theorems": [
    "C09_siblings_refuted",
    "C09_overwrite_refuted",
    "C09_errors_justified_partial",
    "C09_exact_partial",
    "C09_histories_partial"
   ],
   "note": "The full statement is false at the root level (root siblings are not tracked; a parent may be overwritten). Proved: every error is justified, for all histories; within one root key acceptance is exact for all histories of accepted entries."
  },
  {
   "property": "C10",
   "status": "proved",
   "theorems": [
    "C10_escape_means",
    "C10_readers",
    "C10_lexed"
   ],
   "note": "escape_quoted is inverted by the lexer, the event parser, the formatter's unescaper and serde; also through tokenizer and lexer in any context"
  },
  {
   "property": "C11",
   "status": "partial",
   "theorems": [
    "C11_gt_refuted",
    "C11_bare_partial",
    "C11_lexed_partial"
   ],
   "note": "false for strings with >; an accepted string is one bare token exactly if it has no > in it"
  },
  {
   "property": "C12",
   "status": "proved",
   "theorems": [
    "C12_written",
    "C12_chosen",
    "C12_many"
   ],
   "note": "every string the writer writes raw reads back verbatim; write_raw_string is right up to 255 hashes and uses the least number"
  },
  {
   "property": "C13",
   "status": "partial",
   "theorems": [
    "C13_eol_refuted",
    "C13_context_refuted",
    "C13_delimiter_refuted",
    "C13_line_partial",
    "C13_exact_partial"
   ],
   "note": "false without final line feed, before closing brackets or commas, and with all delimiters in the text; proved before a line end for strings ending their last line when some delimiter does not occur"
  },
  {
   "property": "C14",
   "status": "partial",
   "theorems": [
    "C14_refuted",
    "C14_line_partial",
    "C14_short_partial",
    "C14_key_partial"
   ],
   "note": "false for a>b and heredocs without final line feed; proved for all other strings at a line end and for all strings without > and below the heredoc threshold in every context. Keys written by field_key read back as well (C14_key_partial)."
  },
  {
   "property": "C15",
   "status": "partial",
   "theorems": [
    "C15_partial",
    "C15_refuted",
    "C15_unit_refuted",
    "C15_tag_refuted",
    "C15_heredoc_refuted",
    "C15_scalar_refuted",
    "C15_dotted_refuted",
    "C15_tagged_word_refuted",
    "C15_tagged_escape_refuted",
    "C15_key_panic_refuted",
    "C15_neighbours_refuted"
   ],
   "note": "False for several shapes, each with a witness. Proved for all other trees, for every blank indentation, width and style; left out without a witness: heredocs in multi-line nested objects, some units after brackets in sequences, nested doc comments with the forced inline style."
  },
  {
   "property": "C16",
   "status": "proved",
   "theorems": [
    "C16_get",
    "C16_inserts",
    "C16_fresh",
    "C16_insert",
    "C16_insert_unit",
    "C16_contains"
   ],
   "note": "Every history of inserts into every object."
  },
  {
   "property": "C17",
   "status": "partial",
   "theorems": [
    "C17_unreachable_refuted",
    "C17_bracket_refuted",
    "C17_found_partial",
    "C17_reached_partial",
    "C17_get_mut",
    "C17_elsewhere_partial"
   ],
   "note": "False for keys with dots, brackets or no characters and for objects with keys like [0]; proved for all others, get_mut for every string."
  },
  {
   "property": "C18",
   "status": "partial",
   "theorems": [
    "C18_tag_chain_refuted",
    "C18_builds_partial",
    "C18_sources_partial"
   ],
   "note": "Proved for every document and every source up to stacked tags, of which only the outermost is kept (refuted)."
  },
  {
   "property": "C19",
   "status": "proved",
   "theorems": [
    "C19_lossless"
   ],
   "note": "Every source, with or without errors; parser.rs as modelled in CstModel.v."
  },
  {
   "property": "C20",
   "status": "proved",
   "theorems": [
    "C20_once"
   ],
   "note": "Ok rules out non-termination and panics; covers says the leaves are the tokens, in order, each once (tags split in their parts, Eof optional)."
  },
  {
   "property": "C21",
   "status": "partial",
   "theorems": [
    "C21_errors_unchanged",
    "C21_partial",
    "C21_refuted"
   ],
   "note": "Sources with errors come back unchanged. For sources without errors and plain trees (no entry of attributes in key position, at most one value per entry, no sequence whose only element ends with a heredoc) the formatted text has the same significant tokens, kinds and texts, in the same order, for every indentation of blanks. The full statement is false: 'a b c' loses 'c', 'a>b' formats to nothing, and a sequence whose only element is a heredoc is collapsed so that the heredoc is not closed."
  },
  {
   "property": "C22",
   "status": "partial",
   "theorems": [
    "C22_partial",
    "C22_refuted",
    "C22_repairs",
    "C21_partial"
   ],
   "note": "Proved: with any indentation of blanks, a source that parses is formatted to text that parses to the same tree up to places, keys, values, tags, attributes, scalar styles and doc comments included, if the two parsers agree on the source (calm: doc comments start a line outside sequences, attributes stand outside sequences and are no values of attributes, no heredoc glued to a single tag; at most 255 hashes in a row, clear escapes) and its syntax tree is roomy (no sequence whose only element ends with a heredoc, no heredoc as payload of a single tag). A source whose syntax tree has errors is returned unchanged and needs no condition. The full statement is false: a valid sequence whose only element is a heredoc is formatted to text that does not parse, and invalid documents become valid because the formatter drops the offending parts."
  },
  {
   "property": "C23",
   "status": "partial",
   "theorems": [
    "C23_found_partial",
    "C23_complete",
    "C23_long_refuted"
   ],
   "note": "For every hash, compressor and decompressor that round-trips. Found at every offset for schemas whose recorded lengths fit 32 bits; longer ones are never found (refuted). C23_complete characterises the whole result, both formats."
  },
  {
   "property": "C24",
   "status": "partial",
   "theorems": [
    "C24_total",
    "C24_authentic",
    "C24_object_partial",
    "C24_section_refuted"
   ],
   "note": "Full for extract_schemas. For extract_schemas_from_object authentic and total unless a section range wraps around 64 bits, in which case it panics (refuted); goblin is not modelled."
  },
  {
   "property": "C25",
   "status": "partial",
   "theorems": [
    "C25_refuted",
    "C25_collision_refuted",
    "C25_finished_partial",
    "C25_prefix"
   ],
   "note": "False of the code: a call killed after File::create leaves an empty file that later calls return; and 64 hash bits collide. Proved: correct when no earlier call was killed or failed and no same-name hash collision; in all histories the file is a prefix of a content with that name and hash and existing files are never changed."
  },
  {
   "property": "C26",
   "status": "partial",
   "theorems": [
    "C26_fits_typed",
    "C26_serde_round_trip_partial",
    "C26_compact_round_trip_partial",
    "C26_root_tuple_partial",
    "C26_tuples_refuted",
    "C26_tuple_field_refuted",
    "C26_variants_refuted",
    "C26_scalars_refuted",
    "C26_no_variant_read",
    "C26_unit_variants_refuted"
   ],
   "note": "Round trip, also compact, for all values of the types without nested tuples, enum values (except as map keys), 128-bit integers, Some of a unit, heredoc strings and bare words with >. Each exclusion is refuted by a witness; enum values never read back. Floats are not modelled."
  },
  {
   "property": "C27",
   "status": "partial",
   "theorems": [
    "C27_dialect_partial",
    "C27_validator_partial",
    "C27_schema_md_partial",
    "C27_tag_refuted",
    "C27_pattern_refuted",
    "C27_length_refuted",
    "C27_int_refuted",
    "C27_float_refuted",
    "C27_optional_refuted",
    "C27_absent_refuted",
    "C27_flatten_refuted",
    "C27_unit_key_refuted",
    "C27_map_key_refuted",
    "C27_fallback_refuted",
    "C27_order_refuted",
    "C27_payload_refuted",
    "C27_one_of_refuted"
   ],
   "note": "C27_validator_partial: the validator decides, for all schemas and documents on which it ends, the declarative conformance relation in the validator's reading of thirteen disputed points. C27_schema_md_partial: it agrees with schema.md where the document and schema do not touch those points. The refuted theorems give one document for each disputed point, and a dependence on hash map order. Patterns and floats are parameters."
  },
  {
   "property": "C28",
   "status": "partial",
   "theorems": [
    "C28_refuted",
    "C28_acyclic_partial"
   ],
   "note": "Refuted: a type that is an alias of itself makes the validator recurse for ever. Proved: if no schema leads back to itself without entering a value, validation ends on every document with one result."
  },
  {
   "property": "C29",
   "status": "proved",
   "theorems": [
    "C29_place",
    "C29_inverse",
    "C29_clamp",
    "C29_inverse_position",
    "C29_offset_monotone",
    "C29_position_monotone"
   ],
   "note": "Full: both directions, monotone, clamping; every position is covered by C29_clamp."
  },
  {
   "property": "C30",
   "status": "partial",
   "theorems": [
    "C30_refuted",
    "C30_exact_partial"
   ],
   "note": "False: columns count characters. Right exactly when the line so far has no character beyond the basic plane."
  },
  {
   "property": "C31",
   "status": "proved",
   "theorems": [
    "C31_sorted",
    "C31_sent"
   ],
   "note": "Full, from the collected tokens; the collection itself (the CST walk) is not part of the claim."
  },
  {
   "property": "C32",
   "status": "proved",
   "theorems": [
    "C32_painted",
    "C32_strip"
   ],
   "note": "For every source the output is the tokens of the source in order, each unchanged or whole between a colour that fits its kind and the end of colours; for sources without escape characters removing the escape sequences gives the source. No slice panics."
  },
  {
   "property": "C33",
   "status": "proved",
   "theorems": [
    "C33_validator",
    "C33_server",
    "C33_zero",
    "C33_symmetric",
    "C33_triangle",
    "C33_suggestion"
   ],
   "note": "Full, for both copies of the function; the suggestion is also characterised."
  },
  {
   "property": "C34",
   "status": "partial",
   "theorems": [
    "C34_refuted",
    "C34_bounds_refuted",
    "C34_catch_all_refuted",
    "C34_variant_refuted",
    "C34_literal_refuted",
    "C34_partial"
   ],
   "note": "Refuted by changes of field types, bounds, literals, catch-alls and scalar variants, which the comparison does not look at. Proved for changes that keep the kept fields and variants unchanged (careful): no reported breaking change implies that accepted documents stay accepted."
  },
  {
   "property": "C35",
   "status": "partial",
   "theorems": [
    "C35_refuted",
    "C35_bump_partial",
    "C35_accepts"
   ],
   "note": "False only at the largest u64 component, where the addition wraps in a release build. Proved for all other versions, with the text of the result; other texts are refused."
  },
  {
   "property": "C36",
   "status": "partial",
   "theorems": [
    "C36_refuted",
    "C36_order_refuted",
    "C36_plain_partial"
   ],
   "note": "False of the code: unit key and key @, and a tag and an object with key $tag, export alike. Proved for trees without such keys, up to entry order."
  },
  {
   "property": "C37",
   "status": "partial",
   "theorems": [
    "C37_refuted",
    "C37_prefix_partial"
   ],
   "note": "False of the code: fs::write truncates first. Proved for every ending: other files untouched, old text or a prefix of the new text, unchanged on parse or validation failure, new text after success."
  },
  {
   "property": "C38",
   "status": "partial",
   "theorems": [
    "C38_refuted",
    "C38_exact_partial"
   ],
   "note": "False: panics after a multi-byte white space character. C38_exact_partial says exactly when, and what is returned otherwise."
  },
  {
   "property": "C39",
   "status": "partial",
   "theorems": [
    "C39_cst_refuted",
    "C39_agree_partial"
   ],
   "note": "false for the CST accessor with unicode escapes; all others agree, and the CST agrees exactly when no unicode escape is used"
  },
  {
   "property": "C40",
   "status": "proved",
   "theorems": [
    "C40_dedent",
    "C40_dedent_zero"
   ],
   "note": "dedent_heredoc is equivalent to an independent line-wise specification."
  },
  {
   "property": "C41",
   "status": "partial",
   "theorems": [
    "C41_reported_refuted",
    "C41_revalidation_partial"
   ],
   "note": "False in general (too short or empty unicode escapes pass). Proved: without backslash-u the re-validation agrees with the escape grammar."
  },
  {
   "property": "C42",
   "status": "partial",
   "theorems": [
    "C42_no_panic_refuted",
    "C42_parses_total_partial"
   ],
   "note": "False in general (slice off a character boundary). Proved: no panic for sources without backslash-u and without 256 consecutive hashes."
  },
  {
   "property": "C43",
   "status": "partial",
   "theorems": [
    "C43_dotted_refuted"
   ],
   "note": "False: dotted entries with a common prefix are not merged."
  },
  {
   "property": "C44",
   "status": "partial",
   "theorems": [
    "C44_columns_refuted",
    "C44_boundary_refuted",
    "C44_last_line_refuted",
    "C44_offset_partial",
    "C44_position_partial"
   ],
   "note": "False in three ways; the partial theorems say exactly where the conversions agree."
  },
  {
   "property": "C45",
   "status": "partial",
   "theorems": [
    "C45_refuted",
    "C45_exact_partial"
   ],
   "note": "False: lengths are byte lengths; right exactly for ASCII tokens."
  },
  {
   "property": "C46",
   "status": "partial",
   "theorems": [
    "C46_refuted",
    "C46_inside_partial"
   ],
   "note": "False of the code: the cache key is joined unchecked, so an absolute tool name or .. in the id leaves the cache directory. Proved for relative tool names and no .. component."
  },
  {
   "property": "C47",
   "status": "proved",
   "theorems": [
    "C47_reported"
   ],
   "note": "Lengths are in bytes as in the code (see C45), columns in characters."
  },
  {
   "property": "C48",
   "status": "partial",
   "theorems": [
    "C48_refuted",
    "C48_partial"
   ],
   "note": "False for attribute keys, unit keys and keys of tagged objects in sequences; proved for all other trees, including those of sources with errors."
  },
  {
   "property": "C49",
   "status": "partial",
   "theorems": [
    "C49_refuted",
    "C49_partial"
   ],
   "note": "False for heredoc starts and for quoted and raw scalars of several lines; proved for all other kinds of tokens."
  },
  {
   "property": "C50",
   "status": "proved",
   "theorems": [
    "C50_accepts",
    "C50_tree",
    "C50_unambiguous"
   ],
   "note": "For sources whose escapes are clear, as the statement says; includes all sources without backslash-u and all with right unicode escapes only."
  },
  {
   "property": "C51",
   "status": "partial",
   "theorems": [
    "C51_schema_evolution_partial",
    "C51_compact_evolution_partial",
    "C51_refuted"
   ],
   "note": "For the values of C26's fragment; at the root unknown fields written @ must be last. Unknown unit, tagged and heredoc fields are refuted."
  },
  {
   "property": "C52",
   "status": "proved",
   "theorems": [
    "C52_no_panic"
   ],
   "note": "All inputs and types of the model (no floats, no deserialize_any)."
  },
  {
   "property": "C53",
   "status": "proved",
   "theorems": [
    "C53_reading_ends",
    "C53_unguarded_refuted"
   ],
   "note": "For types that are not endless in themselves; the condition is needed. Stack depth is not modelled."
  },
  {
   "property": "C54",
   "status": "partial",
   "theorems": [
    "C54_accepts_refuted",
    "C54_values_refuted"
   ],
   "note": "False in both directions, by witnesses."
  },
  {
   "property": "C55",
   "status": "partial",
   "theorems": [
    "C55_duplicates_partial",
    "C55_mixed",
    "C55_missed_refuted",
    "C55_false_alarm_refuted"
   ],
   "note": "Exact for the texts that the tree's accessors give, for all trees. That the duplicates are the parser's is refuted in both directions."
  },
  {
   "property": "C56",
   "status": "partial",
   "theorems": [
    "C56_partial",
    "C56_refuted",
    "C56_converse_refuted"
   ],
   "note": "Proved for accepted documents whose doc comments start a line outside sequences, whose attributes stand outside sequences and not inside attributes, and whose heredocs are not glued to a tag. The full statement is refuted by witnesses."
  },
  {
   "property": "C57",
   "status": "partial",
   "theorems": [
    "C57_partial",
    "C57_shows_one",
    "C57_reading",
    "C57_refuted"
   ],
   "note": "Same condition as C56_partial; a tree shows only one document up to places. Refuted in full by a heredoc glued to a tag."
  },
  {
   "property": "C58",
   "status": "partial",
   "theorems": [
    "C58_stream_partial",
    "C58_unambiguous",
    "C58_errors",
    "C58_empty_refuted",
    "C58_unit_refuted"
   ],
   "note": "Proved for sources with clear escapes (no refused or decoded quoted text has a backslash followed by u); a document without entries may give no event. Refuted: the empty document and the empty braces are told apart; the written unit is not announced uniformly."
  },
  {
   "property": "C59",
   "status": "partial",
   "theorems": [
    "C59_peek",
    "C59_skip",
    "C59_restore",
    "C59_nested_refuted"
   ],
   "note": "Peeking, skipping and one savepoint are proved for every state; nested savepoints are refuted."
  },
  {
   "property": "C60",
   "status": "partial",
   "theorems": [
    "C60_hint",
    "C60_unique",
    "C60_peeked_refuted",
    "C60_wide_refuted"
   ],
   "note": "Proved for scalars not yet peeked at; refuted after peeking, and for the range of 128-bit numbers. Float parsing is a parameter."
  },
  {
   "property": "C61",
   "status": "partial",
   "theorems": [
    "C61_tidy_partial",
    "C61_errors_partial",
    "C61_refuted"
   ],
   "note": "Proved for every source that the parser accepts and whose tree is tidy (IdemSpec.tidy: no heredoc, a key and at most one value per entry, doc comments directly before what they document and none in sequences, no line end in an empty object), with any blank indentation, and for every source with errors. The formatted text is tokenized and parsed again in the model, and its tree is formatted to the same text. False in general: two accepted sources that change again."
  },
  {
   "property": "C62",
   "status": "partial",
   "theorems": [
    "C62_path_partial",
    "C62_index_refuted",
    "C62_dot_refuted"
   ],
   "note": "Paths of keys are found exactly; refuted for indices and keys with dots."
  },
  {
   "property": "C63",
   "status": "partial",
   "theorems": [
    "C63_places",
    "C63_cursor_partial",
    "C63_unit_key_refuted",
    "C63_dotted_refuted"
   ],
   "note": "Exact for documents with text keys and no dotted root entries (clear escapes); refuted for the others."
  },
  {
   "property": "C64",
   "status": "partial",
   "theorems": [
    "C64_object_partial",
    "C64_sequence_refuted"
   ],
   "note": "Minimal among the objects reached through objects; refuted for objects in sequences."
  },
  {
   "property": "C65",
   "status": "partial",
   "theorems": [
    "C65_total",
    "C65_symbols_partial",
    "C65_dotted_refuted",
    "C65_drawn"
   ],
   "note": "Totality for all accepted documents; outline and ranges for documents without dotted root entries; refuted for those."
  },
  {
   "property": "C66",
   "status": "partial",
   "theorems": [
    "C66_reorder_never",
    "C66_reorder_refuted",
    "C66_placeholder_partial",
    "C66_name_refuted",
    "C66_sequence_refuted",
    "C66_object_refuted",
    "C66_literal_refuted",
    "C66_nested_refuted",
    "C66_declaration_refuted",
    "C66_missing",
    "C66_insert_line",
    "C66_declaration",
    "C66_text_refuted"
   ],
   "note": "The placeholder satisfies the schema for plain schemas; otherwise refuted: reordering never offered, wrong placeholders, nested fields behind the brace, declaration without command."
  },
  {
   "property": "C67",
   "status": "partial",
   "theorems": [
    "C67_depth_partial",
    "C67_seam_refuted",
    "C67_start_refuted"
   ],
   "note": "Exact for texts without syntax errors except at seams, where it is refuted."
  },
  {
   "property": "C68",
   "status": "partial",
   "theorems": [
    "C68_json_partial",
    "C68_number_refuted",
    "C68_tag_refuted"
   ],
   "note": "Exact for JSON of strings, nulls, arrays and objects; refuted for numbers, booleans; tags are lost."
  },
  {
   "property": "C69",
   "status": "partial",
   "theorems": [
    "C69_roundtrip_partial",
    "C69_number_variant_refuted",
    "C69_raw_variant_refuted",
    "C69_word_refuted",
    "C69_tagged_name_refuted",
    "C69_heredoc_refuted",
    "C69_empty_refuted"
   ],
   "note": "Holds for all values, of any nesting, that avoid the listed defects (root_sound); the rest is refuted by witnesses."
  },
  {
   "property": "C70",
   "status": "partial",
   "theorems": [
    "C70_accepts",
    "C70_stream_partial",
    "C70_roundtrip_partial",
    "C70_one_line_partial",
    "C70_trailing_refuted",
    "C70_docs_refuted",
    "C70_one_line_refuted"
   ],
   "note": "Acceptance is characterised exactly; but trailing content is ignored, which is refuted as a property. Streams: without doc comments behind inner values. Compact text is one line if its texts have no line feed; otherwise refuted."
  },
  {
   "property": "C71",
   "status": "partial",
   "theorems": [
    "C71_identifiers",
    "C71_pascal",
    "C71_fields_apart_partial",
    "C71_fields_apart_refuted",
    "C71_declared_partial",
    "C71_scalar_refuted",
    "C71_case_refuted"
   ],
   "note": "Identifiers: for all names of letters, digits and separators. Different names and declared types are proved under conditions on the names and types; without them they are refuted."
  },
  {
   "property": "C72",
   "status": "partial",
   "theorems": [
    "C72_structs_partial",
    "C72_enums_partial",
    "C72_nothing_else",
    "C72_order_partial",
    "C72_order_refuted",
    "C72_structs_refuted"
   ],
   "note": "For schemas in which no two types get the same name; refuted otherwise. Nothing else is declared: for every schema."
  },
  {
   "property": "C73",
   "status": "partial",
   "theorems": [
    "C73_string_partial",
    "C73_int_partial",
    "C73_float_partial",
    "C73_only_limits",
    "C73_nested_refuted",
    "C73_deprecated_refuted",
    "C73_range_refuted",
    "C73_required_only_optional",
    "C73_required_refuted",
    "C73_message_refuted"
   ],
   "note": "Fields with limits inside any number of default and optional, with limits in range; refuted for nested objects, deprecated fields, limits out of range and the test for missing fields."
  },
  {
   "property": "C74",
   "status": "partial",
   "theorems": [
    "C74_terminates",
    "C74_once",
    "C74_used_partial",
    "C74_only_used",
    "C74_closed_partial",
    "C74_closed_refuted",
    "C74_usable_refuted"
   ],
   "note": "Termination and each definition once hold for all tables. That all used types are defined needs distinct identifiers; that every name is defined fails for Schema and unlisted opaque types (refuted)."
  },
  {
   "property": "C75",
   "status": "partial",
   "theorems": [
    "C75_accepted_partial",
    "C75_flattened_refuted",
    "C75_identifiers_refuted",
    "C75_opaque_refuted",
    "C75_u128_refuted",
    "C75_variant_refuted",
    "C75_unit_variant_refuted",
    "C75_two_maps_refuted",
    "C75_only_refuted"
   ],
   "note": "Proved for tables of types meeting types_ok; each condition is needed, as the refutations show. Documents of Result and Schema, maps whose keys are not scalars, and variants whose content has a tag of its own are not described."
  },
  {
   "property": "C76",
   "status": "partial",
   "theorems": [
    "C76_proposals_partial",
    "C76_ends_partial",
    "C76_choice",
    "C76_choice_required",
    "C76_type_partial",
    "C76_optional_refuted",
    "C76_union_refuted",
    "C76_flatten_refuted",
    "C76_sequence_refuted",
    "C76_unit_key_refuted",
    "C76_ends_refuted",
    "C76_map_refuted",
    "C76_edit_refuted",
    "C76_type_refuted"
   ],
   "note": "Proposals are exactly the missing fields, with their types, where the object's type is an object or a name of one, without @flatten, up to fifty fields; lookup ends for schemas without cycles and panics only on an empty @map; choice among more than fifty is proved in full. The full statement is refuted in optional objects, unions, sequences, behind unit keys, for flattened fields, and for the edit behind a comma."
  },
  {
   "property": "C77",
   "status": "partial",
   "theorems": [
    "C77_hover_partial",
    "C77_ends_refuted",
    "C77_alias_refuted",
    "C77_map_refuted",
    "C77_other_refuted",
    "C77_variant_refuted",
    "C77_enum_refuted",
    "C77_default_refuted",
    "C77_item_refuted",
    "C77_flatten_refuted"
   ],
   "note": "Proved for places reached through objects (direct or by one name, also inside @optional, @default with a text, @deprecated), written-out maps, catch-alls, sequences and enum variants where the variants before have no such field. The full statement is false; nine witnesses are given."
  },
  {
   "property": "C78",
   "status": "partial",
   "theorems": [
    "C78_sound",
    "C78_goto_partial",
    "C78_first_refuted",
    "C78_optional_refuted",
    "C78_key_refuted"
   ],
   "note": "Always a key of the schema block with the field's name; the right one if no other key reached through objects has that name. The full statement is false: the first key of the name is taken, keys inside sequences are not found, and keys without a declaration lead somewhere."
  },
  {
   "property": "C79",
   "status": "partial",
   "theorems": [
    "C79_structs_partial",
    "C79_enums_partial",
    "C79_root_partial",
    "C79_names_refuted",
    "C79_root_refuted"
   ],
   "note": "For names made of letters, digits and separators and the conditions of C71 and C72 (no two types with one name, references to declared types). Refuted for other names and for roots that are not objects."
  },
  {
   "property": "C80",
   "status": "partial",
   "theorems": [
    "C80_edit_partial",
    "C80_unterminated_partial",
    "C80_refuted",
    "C80_settles_refuted",
    "C80_return_refuted"
   ],
   "note": "exact result of the edit for texts without lone carriage returns: the formatted text followed by the old final line break; so right only for texts that do not end with a line break; refuted otherwise"
  },
  {
   "property": "C81",
   "status": "partial",
   "theorems": [
    "C81_indent_partial",
    "C81_refuted"
   ],
   "note": "for lines without indentation; refuted for lines that have some"
  },
  {
   "property": "C82",
   "status": "partial",
   "theorems": [
    "C82_rename_partial",
    "C82_astral_refuted",
    "C82_quotes_refuted"
   ],
   "note": "if the line has no astral characters and there are no lone carriage returns; refuted for astral characters and for names that need quotes"
  },
  {
   "property": "C83",
   "status": "partial",
   "theorems": [
    "C83_shown_partial",
    "C83_quiet",
    "C83_errors",
    "C83_allow_refuted"
   ],
   "note": "for request sequences without the command that allows an extension; refuted with it; errors of the validator without a span are not covered"
  },
  {
   "property": "C84",
   "status": "partial",
   "theorems": [
    "C84_sound",
    "C84_found_partial",
    "C84_uses_partial",
    "C84_nested_refuted"
   ],
   "note": "every result is a key of that name; completeness for keys of the root; refuted for nested fields"
  },
  {
   "property": "C85",
   "status": "partial",
   "theorems": [
    "C85_agree",
    "C85_spans",
    "C85_trees",
    "C85_valid_partial",
    "C85_valid_refuted"
   ],
   "note": "Proved for diagnostics, places and validity; a valid source has a tree if its events nest. Without that it is false (C85_valid_refuted). The parser may panic before the end of a source (C04, C42): then there is no claim."
  },
  {
   "property": "C86",
   "status": "partial",
   "theorems": [
    "C86_partial",
    "C86_styles_partial",
    "C86_refuted",
    "C86_sources_refuted"
   ],
   "note": "The JSON values that come back are characterised exactly (C86_partial is an equivalence). For all values it is false."
  },
  {
   "property": "C87",
   "status": "partial",
   "theorems": [
    "C87_partial",
    "C87_refuted"
   ],
   "note": "Proved for plain objects that C15 covers; false for others, also for plain ones."
  },
  {
   "property": "C88",
   "status": "partial",
   "theorems": [
    "C88_parse_partial",
    "C88_null",
    "C88_refuted"
   ],
   "note": "Proved for texts without NUL that the parser reads to their end (C04); with a NUL it is false."
  },
  {
   "property": "C89",
   "status": "partial",
   "theorems": [
    "C89_view_partial",
    "C89_sound",
    "C89_get",
    "C89_get_none",
    "C89_path_partial",
    "C89_refuted"
   ],
   "note": "That nothing else can be seen, and looking up keys, are proved for all values; paths under the conditions of C17; that everything is seen for values without NUL, and with NULs it is false."
  },
  {
   "property": "C90",
   "status": "partial",
   "theorems": [
    "C90_partial",
    "C90_refuted",
    "C90_raw_refuted",
    "C90_surrogate_refuted"
   ],
   "note": "Proved for all sources, with the escapes whose number is no code of a character as a third outcome (ValueError), for which the full statement is false."
  },
  {
   "property": "C91",
   "status": "partial",
   "theorems": [
    "C91_partial",
    "C91_refuted",
    "C91_gt_refuted"
   ],
   "note": "Proved at the end of a line, for texts not written bare with >, nor as heredoc without final line end; for these it is false."
  },
  {
   "property": "C92",
   "status": "partial",
   "theorems": [
    "C92_partial",
    "C92_refuted"
   ],
   "note": "Proved for sources in which at no place more braces are closed than opened; false for every source that begins with a closing brace."
  },
  {
   "property": "C93",
   "status": "partial",
   "theorems": [
    "C93_partial",
    "C93_refuted",
    "C93_names_refuted",
    "C93_path_refuted"
   ],
   "note": "Proved for the trees that Rust itself reads back (C15_partial) without dotted words as keys of nested objects and without two keys under the same name in Python; for these exceptions it is false."
  },
  {
   "property": "C94",
   "status": "proved",
   "theorems": [
    "C94_sexp_faithful",
    "C94_sexp_delimited",
    "C94_python_texts",
    "C94_root_tag_refuted",
    "C94_python_refuted"
   ],
   "note": "Full statement; what the output leaves out is defined by shown_root."
  },
  {
   "property": "C95",
   "status": "proved",
   "theorems": [
    "C95_python_neat",
    "C95_names_distinct",
    "C95_braces",
    "C95_attributes_refuted",
    "C95_line_refuted"
   ],
   "note": "Full statement; that names of attributes may be repeated is recorded as a finding."
  },
  {
   "property": "C96",
   "status": "proved",
   "theorems": [
    "C96_same_output",
    "C96_compared",
    "C96_sources",
    "C96_root_refuted"
   ],
   "note": "Full statement; for trees read from a source only the conditions on texts and names of tags remain (C96_sources)."
  },
  {
   "property": "C97",
   "status": "proved",
   "theorems": [
    "C97_same_output",
    "C97_sources",
    "C97_sequences",
    "C97_texts",
    "C97_swift_texts",
    "C97_control_refuted"
   ],
   "note": "Full statement, with the three conditions of C96; for trees read from a source only the condition on texts is left."
  },
  {
   "property": "C98",
   "status": "proved",
   "theorems": [
    "C98_python",
    "C98_javascript",
    "C98_swift",
    "C98_line_end_refuted"
   ],
   "note": "Full statement, for errors of the parser."
  }
 ]
}