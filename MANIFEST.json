{
 "claims": [
  {
   "property": "C02",
   "status": "proved",
   "theorems": [
    "C02_size_is_length"
   ],
   "note": "All generated-style schemas and all well-typed values, for outputs below 2^63 bytes."
  },
  {
   "property": "C03",
   "status": "proved",
   "theorems": [
    "C03_append_keeps_prefix"
   ],
   "note": ""
  },
  {
   "property": "C04",
   "status": "proved",
   "theorems": [
    "C04_canonical",
    "C04_ascending"
   ],
   "note": "Outputs below 2^63 bytes."
  },
  {
   "property": "C06",
   "status": "proved",
   "theorems": [
    "C06_int32_writer",
    "C06_int32_positions",
    "C06_decode_positions"
   ],
   "note": ""
  },
  {
   "property": "C07",
   "status": "proved",
   "theorems": [
    "C07_encode_depth",
    "C07_memory",
    "C07_cyclic",
    "C07_trees",
    "C07_nil"
   ],
   "note": "C07_encode_depth is about tree values; C07_memory and C07_cyclic about values in memory with sharing, interior pointers and cycles; C07_trees reduces these to trees."
  },
  {
   "property": "C23",
   "status": "proved",
   "theorems": [
    "C23_varint_writers",
    "C23_varint_canonical",
    "C23_varint_roundtrip",
    "C23_zigzag_writers",
    "C23_zigzag_bijection",
    "C23_fixed32",
    "C23_fixed64",
    "C23_fixed_little_endian",
    "C23_bool",
    "C23_tag_roundtrip"
   ],
   "note": "All 32/64-bit values, all continuations."
  },
  {
   "property": "C24",
   "status": "proved",
   "theorems": [
    "C24_SizeVarint"
   ],
   "note": ""
  },
  {
   "property": "C25",
   "status": "proved",
   "theorems": [
    "C25_skip_unknown",
    "C25_skip_safe",
    "C25_self_delimiting"
   ],
   "note": "Exact grammar; the effective group depth limit is 10001."
  },
  {
   "property": "C26",
   "status": "proved",
   "theorems": [
    "C26_LenPack"
   ],
   "note": ""
  },
  {
   "property": "C31",
   "status": "partial",
   "theorems": [
    "C31_nil_agree_partial",
    "C31_nil_refuted"
   ],
   "note": "False of the code for nil interfaces and for types with by-value message fields (witnesses in the refuted theorem); proved for all other types."
  },
  {
   "property": "C34",
   "status": "proved",
   "theorems": [
    "C34_orders_encode",
    "C34_decodes_equal"
   ],
   "note": "Decoding: for messages whose stored unknown bytes are well-formed and whose nesting is within the limit of C01."
  },
  {
   "property": "C36",
   "status": "proved",
   "theorems": [
    "C36_overlong_varints",
    "C36_rejected"
   ],
   "note": ""
  },
  {
   "property": "C40",
   "status": "proved",
   "theorems": [
    "C40_nil_elements",
    "C40_zero_is_empty",
    "C40_list_survives",
    "C40_map_survives"
   ],
   "note": ""
  },
  {
   "property": "C05",
   "status": "proved",
   "theorems": [
    "C05_fold_of_records",
    "C05_records_unique"
   ],
   "note": "The per-record effects are in DecSpec; choices of the code that differ from protobuf are marked QUIRK there."
  },
  {
   "property": "C09",
   "status": "proved",
   "theorems": [
    "C09_total",
    "C09_not_pointer",
    "C09_nil_refuted"
   ],
   "note": "Typed nil pointers, which the property excludes, panic (C09_nil_refuted)."
  },
  {
   "property": "C10",
   "status": "proved",
   "theorems": [
    "C10_truncated"
   ],
   "note": ""
  },
  {
   "property": "C11",
   "status": "proved",
   "theorems": [
    "C11_unknown_kept",
    "C11_reemitted"
   ],
   "note": ""
  },
  {
   "property": "C12",
   "status": "proved",
   "theorems": [
    "C12_untouched"
   ],
   "note": ""
  },
  {
   "property": "C13",
   "status": "proved",
   "theorems": [
    "C13_last_wins"
   ],
   "note": "Also covers pointer fields."
  },
  {
   "property": "C14",
   "status": "proved",
   "theorems": [
    "C14_appends",
    "C14_stale_refuted"
   ],
   "note": "For elements held by value the new element starts from what the spare capacity holds (stale_refuted shows the consequence)."
  },
  {
   "property": "C15",
   "status": "proved",
   "theorems": [
    "C15_last_member",
    "C15_one_emitted"
   ],
   "note": ""
  },
  {
   "property": "C16",
   "status": "proved",
   "theorems": [
    "C16_order"
   ],
   "note": ""
  },
  {
   "property": "C17",
   "status": "proved",
   "theorems": [
    "C17_concat"
   ],
   "note": ""
  },
  {
   "property": "C20",
   "status": "proved",
   "theorems": [
    "C20_field_lookup"
   ],
   "note": ""
  },
  {
   "property": "C29",
   "status": "proved",
   "theorems": [
    "C29_initialised"
   ],
   "note": ""
  },
  {
   "property": "C35",
   "status": "proved",
   "theorems": [
    "C35_last_key"
   ],
   "note": ""
  },
  {
   "property": "C39",
   "status": "proved",
   "theorems": [
    "C39_wire_type"
   ],
   "note": ""
  },
  {
   "property": "C42",
   "status": "proved",
   "theorems": [
    "C42_growth",
    "C14_appends"
   ],
   "note": ""
  },
  {
   "property": "C50",
   "status": "partial",
   "theorems": [
    "C50_failed_refuted",
    "C50_failed_partial"
   ],
   "note": "False of the code: after a failed Unmarshal a oneof member can hold memory that was never written. What remains true is proved."
  },
  {
   "property": "C08",
   "status": "partial",
   "theorems": [
    "C08_refuted",
    "C08_limit_partial"
   ],
   "note": "False of the code: nesting through map values is not limited. Proved for nesting through fields and lists."
  },
  {
   "property": "C27",
   "status": "proved",
   "theorems": [
    "C27_packed",
    "C27_packed_field"
   ],
   "note": ""
  },
  {
   "property": "C28",
   "status": "partial",
   "theorems": [
    "C28_append",
    "C28_size",
    "C28_decode_partial",
    "C28_bool_refuted"
   ],
   "note": "Encoding and sizing proved; decoding proved except for bools, where the paths differ (refuted)."
  },
  {
   "property": "C37",
   "status": "partial",
   "theorems": [
    "C37_refuted",
    "C37_mixed_partial"
   ],
   "note": "False of the code in two ways (refuted); the rest is proved."
  },
  {
   "property": "C38",
   "status": "partial",
   "theorems": [
    "C38_refuted",
    "C38_ordered_partial"
   ],
   "note": "False of the code for reordered, missing or interleaved fields; proved for entries key-then-value."
  },
  {
   "property": "C41",
   "status": "partial",
   "theorems": [
    "C41_refuted",
    "C41_canonical_partial"
   ],
   "note": "False of the code for varints other than 0 and 1; proved for those."
  },
  {
   "property": "C43",
   "status": "partial",
   "theorems": [
    "C43_refuted",
    "C43_by_value_partial"
   ],
   "note": "False of the code for messages held by pointer (the last occurrence replaces); proved for messages held by value."
  },
  {
   "property": "C53",
   "status": "proved",
   "theorems": [
    "C53_concurrent",
    "C53_decoder_pools"
   ],
   "note": "Marshal, Size and Unmarshal as programs that take objects from pools, read, write and return them; every interleaving, every choice of the pools and every earlier content."
  },
  {
   "property": "C01",
   "status": "proved",
   "theorems": [
    "C01_round_trip",
    "C01_unmarshalled",
    "C01_levels",
    "C01_map_depth_refuted"
   ],
   "note": "The nesting limit of the statement counts a message in a map twice, as Unmarshal does; C01_map_depth_refuted shows that Marshal itself accepts more."
  },
  {
   "property": "C32",
   "status": "partial",
   "theorems": [
    "C32_refuted",
    "C32_kept_partial"
   ],
   "note": "False of the code for members holding a zero value; proved for all other members."
  },
  {
   "property": "C33",
   "status": "partial",
   "theorems": [
    "C33_refuted",
    "C33_pointer_partial"
   ],
   "note": "False of the code for optional bytes; proved for pointer fields."
  },
  {
   "property": "C54",
   "status": "partial",
   "theorems": [
    "C54_refuted",
    "C54_encode_again_partial"
   ],
   "note": "False of the code with messages held by value; proved without."
  },
  {
   "property": "C18",
   "status": "proved",
   "theorems": [
    "C18_blocks",
    "C18_writes"
   ],
   "note": ""
  },
  {
   "property": "C19",
   "status": "proved",
   "theorems": [
    "C19_lookup",
    "C19_fresh",
    "C19_one_descriptor",
    "C19_published_once"
   ],
   "note": ""
  },
  {
   "property": "C21",
   "status": "partial",
   "theorems": [
    "C21_refuted",
    "C21_tags_partial",
    "C21_numbers",
    "C21_groups"
   ],
   "note": "False of the code when a default value contains a comma followed by a word of the tag syntax; proved for all other tags."
  },
  {
   "property": "C22",
   "status": "partial",
   "theorems": [
    "C22_refuted",
    "C22_accepted",
    "C22_safe_partial"
   ],
   "note": "False of the code: some unsupported field types are accepted (the exact list is proved). Types without them are safe."
  },
  {
   "property": "C55",
   "status": "partial",
   "theorems": [
    "C55_refuted",
    "C55_no_panic_partial"
   ],
   "note": "False of the code for field numbers of 2^31 and more; proved otherwise."
  },
  {
   "property": "C44",
   "status": "partial",
   "theorems": [
    "C44_refuted",
    "C44_tags_partial"
   ],
   "note": "False of the code for packed=false in proto3, which is ignored; proved otherwise."
  },
  {
   "property": "C56",
   "status": "proved",
   "theorems": [
    "C56_accepted",
    "C56_safe"
   ],
   "note": ""
  },
  {
   "property": "C57",
   "status": "partial",
   "theorems": [
    "C57_refuted",
    "C57_types_partial",
    "C57_unique"
   ],
   "note": "False of the code for LEGACY_REQUIRED presence in edition 2023; proved otherwise."
  },
  {
   "property": "C45",
   "status": "proved",
   "theorems": [
    "C45_identifiers",
    "C45_snake"
   ],
   "note": ""
  },
  {
   "property": "C46",
   "status": "proved",
   "theorems": [
    "C46_fields",
    "C46_stable"
   ],
   "note": "The getters of oneofs, which the resolution ignores, are in C58."
  },
  {
   "property": "C47",
   "status": "partial",
   "theorems": [
    "C47_refuted",
    "C47_wrappers_partial"
   ],
   "note": "False of the code: wrappers are not compared with each other. They always differ from nested types, and from each other unless one field is named like another followed by underscores."
  },
  {
   "property": "C58",
   "status": "partial",
   "theorems": [
    "C58_refuted",
    "C58_selectors_partial"
   ],
   "note": "False of the code for getters of oneofs and XXX_OneofWrappers; proved when no name camel-cases to one starting with Get or to XXX_OneofWrappers."
  },
  {
   "property": "C59",
   "status": "partial",
   "theorems": [
    "C59_refuted",
    "C59_declarations_partial"
   ],
   "note": "False of the code for enums inside nested messages, which are not generated; proved for all others."
  },
  {
   "property": "C60",
   "status": "proved",
   "theorems": [
    "C60_unknown"
   ],
   "note": ""
  },
  {
   "property": "C49",
   "status": "partial",
   "theorems": [
    "C49_refuted",
    "C49_verified_partial",
    "C49_errors"
   ],
   "note": "False of the code for reserved ranges in octal or hexadecimal, enum values 19000 to 19999 and -2^31; proved for all other messages and enums."
  },
  {
   "property": "C51",
   "status": "proved",
   "theorems": [
    "C51_directives",
    "C51_comments",
    "C51_options",
    "C51_has",
    "C51_is_set"
   ],
   "note": ""
  },
  {
   "property": "C61",
   "status": "partial",
   "theorems": [
    "C61_range_refuted",
    "C61_literals"
   ],
   "note": "Literals are read correctly; the range of field numbers is not checked."
  },
  {
   "property": "C52",
   "status": "partial",
   "theorems": [
    "C52_refuted",
    "C52_resolve_partial",
    "C52_dot_partial",
    "C52_unique",
    "C52_scalar",
    "C83_means_partial"
   ],
   "note": "The search differs from the rules in nine ways (C52_refuted); for all other names and files the type found is the one meant and nothing is found only if nothing is meant."
  },
  {
   "property": "C48",
   "status": "proved",
   "theorems": [
    "C48_load",
    "C48_sort"
   ],
   "note": ""
  },
  {
   "property": "C30",
   "status": "partial",
   "theorems": [
    "C30_refuted",
    "C30_refuted_more",
    "C30_valid_partial",
    "C30_clean_partial",
    "C30_again_partial"
   ],
   "note": "False of the code: after a type failed or panicked, an invalid type in a cycle with it is accepted, with a descriptor that has a nil struct. Proved: valid types are accepted, with a faithful descriptor, after every history; and as long as no call failed exactly the valid types are accepted (if no map key contains a struct); and a call that failed fails again."
  },
  {
   "property": "C62",
   "status": "proved",
   "theorems": [
    "C62_strings",
    "C62_values",
    "C62_constants",
    "C62_names",
    "C62_compiles_partial"
   ],
   "note": "C62_values needs distinct value names, as protobuf does; that the declarations compile is C63 (C62_compiles_partial is the part for one enum)."
  },
  {
   "property": "C63",
   "status": "partial",
   "theorems": [
    "C63_refuted",
    "C63_style_partial"
   ],
   "note": "False of the code in four ways; proved for names in the usual style."
  },
  {
   "property": "C64",
   "status": "partial",
   "theorems": [
    "C64_refuted",
    "C64_imports_partial"
   ],
   "note": "False of the code when go_package gives a name that is not the last element of the path, when two imported packages have the same last element, and for a type reached by a public import of another Go package; proved for all other sets of files."
  },
  {
   "property": "C66",
   "status": "partial",
   "theorems": [
    "C66_refuted",
    "C66_go_package_partial",
    "C66_not_set"
   ],
   "note": "False of the code: the M option loses against the option in the file, and the last element of a path need not be an identifier. Proved for one source of the package."
  },
  {
   "property": "C67",
   "status": "partial",
   "theorems": [
    "C67_refuted",
    "C67_writer_partial"
   ],
   "note": "False of the code when the header contains the place holder of the imports; proved otherwise, for every history of calls, map order and sorting algorithm."
  },
  {
   "property": "C70",
   "status": "proved",
   "theorems": [
    "C70_memory",
    "C70_returns",
    "C70_input",
    "C70_others",
    "C70_new",
    "C70_two",
    "C70_copied_refuted"
   ],
   "note": "C70_copied_refuted shows that the ownership hypothesis is needed: a shallow copy of a message sees its unknown bytes overwritten."
  },
  {
   "property": "C65",
   "status": "partial",
   "theorems": [
    "C65_refuted",
    "C65_package_refuted",
    "C65_getters",
    "C65_compiles",
    "C65_complete",
    "C65_default_partial"
   ],
   "note": "False of the code: the option default and the rule that an enum defaults to its first value are ignored (the zero value is returned), an enum of a package whose path ends in x does not compile, and a oneof that holds a nil wrapper makes the getter panic. Proved otherwise."
  },
  {
   "property": "C69",
   "status": "partial",
   "theorems": [
    "C69_refuted",
    "C69_literal_partial",
    "C69_lexed",
    "C69_other",
    "C69_import",
    "C69_accepted",
    "C69_lexer_refuted",
    "C69_token",
    "C69_is_token"
   ],
   "note": "False of the code: of adjacent literals only the first counts, \\X is accepted by the grammar but then rejected, and \\u, \\? and escapes with fewer digits are no tokens. Proved for every single literal without \\X: the code gives it a value iff the language does, and the same one."
  },
  {
   "property": "C68",
   "status": "partial",
   "theorems": [
    "C68_refuted",
    "C68_search",
    "C68_import",
    "C68_inside",
    "C68_source",
    "C68_source_partial",
    "C68_distinct_import",
    "C68_distinct_source",
    "C68_run",
    "C68_stopped",
    "C68_paths",
    "C68_M",
    "C68_clean"
   ],
   "note": "False of the code: paths=source_relative ignores -go_out, with paths=import files of the same name and import path replace each other silently, and options separated by commas or with unknown values are ignored. Proved: search, places, when two files share a place, what is written in a run, and which options count."
  },
  {
   "property": "C71",
   "status": "partial",
   "theorems": [
    "C71_comments",
    "C71_unique",
    "C71_once",
    "C71_not_both",
    "C71_directives",
    "C71_refuted",
    "C71_message_end",
    "C71_enum_line_partial",
    "C71_enum_line_refuted"
   ],
   "note": "Proved for every file: which comments a definition and the file get, and that no comment is given twice. False of the code: a comment on the line of an import, package or option, or behind an opening brace, is given to the definition on the next line together with its directives, and a percent sign in the comment of an enum is read as a verb."
  },
  {
   "property": "C72",
   "status": "proved",
   "theorems": [
    "C72_mirror",
    "C72_unique",
    "C72_once",
    "C72_oneofs"
   ],
   "note": "The walk over every parse tree ends in the one tree the text means, or in a fatal error exactly if it has none; the comments are C71 and the loading of imports is that of Load.v."
  },
  {
   "property": "C73",
   "status": "proved",
   "theorems": [
    "C73_tree",
    "C73_new",
    "C73_apart",
    "C73_independent",
    "C73_determined",
    "C73_two"
   ],
   "note": "For the decoder on memory. An object here is one allocation handed out; that the pieces the span allocator hands out do not overlap is proved about Span.v (C18)."
  },
  {
   "property": "C74",
   "status": "proved",
   "theorems": [
    "C74_marshal",
    "C74_prefix",
    "C74_others",
    "C74_new",
    "C74_Marshal",
    "C74_reuse",
    "C74_overlap_refuted"
   ],
   "note": "For the encoder on memory. The message may share memory with the buffer in every way but one: its strings, []byte and unknown fields must not lie in the spare capacity of the buffer; C74_overlap_refuted shows that this condition is needed, and C74_reuse that a decoded message always meets it for the array it was decoded from."
  },
  {
   "property": "C75",
   "status": "proved",
   "theorems": [
    "C75_total",
    "C75_tokens",
    "C75_only",
    "C75_unique",
    "C75_plain"
   ],
   "note": "The table of the lexer, copied from the generated file, and the simulator of the ANTLR runtime are run against regular expressions by a check of all pairs of reachable states, done by the kernel; the theorems hold for files of every length and all bytes. The cache of DFA states is C78."
  },
  {
   "property": "C76",
   "status": "partial",
   "theorems": [
    "C76_refuted",
    "C76_told_partial",
    "C76_all_partial"
   ],
   "note": "False of the code: parseInput replaces the error listeners of the parser but not those of the lexer, so that characters that belong to no token are printed to stderr and dropped, and code is generated. Proved: exactly the files that cannot be cut into tokens are told on stderr; otherwise no character is dropped."
  },
  {
   "property": "C77",
   "status": "proved",
   "theorems": [
    "C77_layout",
    "C77_same",
    "C77_insert",
    "C77_blanks"
   ],
   "note": "For what the parser reads. What the comments are used for is C71."
  },
  {
   "property": "C78",
   "status": "proved",
   "theorems": [
    "C78_same",
    "C78_ends",
    "C78_history"
   ],
   "note": "For any number of goroutines and files: the operations on the shared automaton (start state, look-up and addition of a state, look-up and addition of an edge, each under its mutex in the code) interleave in any order. The configurations and the accepted token of a state, which do not change once it is in the automaton, are read without a mutex; the memory model of Go is not modelled."
  },
  {
   "property": "C79",
   "status": "proved",
   "theorems": [
    "C79_ends",
    "C79_tree",
    "C79_leaves",
    "C79_error",
    "C79_accepts",
    "C79_same",
    "C79_prediction",
    "C79_two_stages",
    "C79_file",
    "C79_adaptive",
    "C79_adaptive_accepts",
    "C79_adaptive_same"
   ],
   "note": "The 53 functions of the generated parser, their Sync calls and lookahead sets, and the prediction with full context; the grammar of the specification is written by hand from Protobuf.g4. Both stages of the prediction are modelled (Sll.v): when the first stage sees a conflict and what is answered where nothing is viable are arbitrary, and the theorems hold for all choices. The cache of the first stage is not modelled. Error recovery is not modelled: the model stops at the first error, as the file is then refused."
  },
  {
   "property": "C80",
   "status": "partial",
   "theorems": [
    "C80_refuted",
    "C80_tokens_partial",
    "C80_names_partial"
   ],
   "note": "False of the code: a word that is a keyword can be a name, but required (forgotten in the rule keywords) and inf and nan (lexed as float literals) cannot. Proved: every other word can stand where an identifier stands."
  },
  {
   "property": "C81",
   "status": "proved",
   "theorems": [
    "C81_walk",
    "C81_sentences",
    "C81_any",
    "C81_no_panic",
    "C81_error",
    "C81_same",
    "C81_file",
    "C81_adaptive"
   ],
   "note": "From the bytes of one file to the loaded definitions, before imports are loaded and names are resolved. The grammar lets `option foo = 1;` in a message be read as a field of type option, so that a text can spell two files; the theorem says that one of them is loaded. Comments are C71 and C85."
  },
  {
   "property": "C82",
   "status": "proved",
   "theorems": [
    "C82_table",
    "C82_rules",
    "C82_file",
    "C82_states",
    "C82_sync",
    "C82_decisions"
   ],
   "note": "The serialized network is copied number by number (ParserTable.v) and read by the model of the deserializer; the states named in the functions are copied from the SetState calls. verifyATN, which only panics on networks that ANTLR does not make, is not modelled. Prediction itself works on the parts of rules that the states stand for, not on the states (Sll.v)."
  },
  {
   "property": "C83",
   "status": "proved",
   "theorems": [
    "C83_reached",
    "C83_legal",
    "C83_fields",
    "C83_types",
    "C83_one_path",
    "C83_runs",
    "C83_typed"
   ],
   "note": "Joins C81 (bytes to objects), C49 (numbers), C56 (generated types) and C01, C09 (runtime). What LoadProto does not check itself is the record legal_decl of CompileSpec.v, and a hypothesis. Directives are given from outside; strconv.Unquote is a parameter as in C56. The names of fields and oneofs and the keys of maps are shown to be what the generator needs from the tokens of the file."
  },
  {
   "property": "C84",
   "status": "partial",
   "theorems": [
    "C84_file_partial",
    "C84_message",
    "C84_getters",
    "C84_refuted"
   ],
   "note": "False as stated: the inline comment of an enum is part of the format of Fprintf, and a percent sign in it can swallow the end of the comment and with it the rest of the file (C84_refuted). Otherwise proved for every file whose names are words of Go and whose comments are comments of Go. The bodies of functions are compared as tokens. gofmt, which runs on the text, is not modelled."
  },
  {
   "property": "C85",
   "status": "proved",
   "theorems": [
    "C85_file",
    "C85_printed",
    "C85_total"
   ],
   "note": "Joins C71 with the lexer (C75), the parser (C79) and the listeners (C81): what C71 asks of the tokens and the places of definitions is proved of every file. A comment behind an import or behind an opening brace goes to the next definition (C71_refuted, C85_ex)."
  },
  {
   "property": "C86",
   "status": "partial",
   "theorems": [
    "C86_file_partial",
    "C86_header",
    "C86_message",
    "C86_package",
    "C86_declared",
    "C86_getters",
    "C86_stands",
    "C86_refuted"
   ],
   "note": "Joins C83 (bytes to messages), C85 (comments) and C84 (Go text): that names are words of Go and comments comments of Go is proved of every accepted file here. False as stated for enums in nested messages, which are referred to and not declared (C86_refuted, see C59). Otherwise proved for import paths that are words and inline comments of enums without percent signs. C86_package shows that the type names mean the types they are generated for, for files without public imports and enums in nested messages, in a Go package that declares each type name once (C63 and C64 have the exceptions); C86_getters joins C65 to it: the getters are declared and return the field or its zero value; C86_message has the weaker condition scope_ok on the names of one message."
  },
  {
   "property": "C87",
   "status": "partial",
   "theorems": [
    "C87_reflect",
    "C87_unique",
    "C87_total",
    "C87_method",
    "C87_members_partial",
    "C87_refuted",
    "C87_endless",
    "C87_deep"
   ],
   "note": "False of the code: if the type has a method ProtoReflect its XXX_OneofWrappers is not looked at, and if ProtoReflect does not lead to a field OneofWrappers within five levels the members of its oneofs are silently left out (C87_refuted, C87_deep). Proved: which wrappers are found, that the search ends unless a pointer leads to itself, and that exactly the wrappers found become fields."
  },
  {
   "property": "C88",
   "status": "partial",
   "theorems": [
    "C88_types_partial",
    "C88_package_partial",
    "C88_means_partial",
    "C88_names",
    "C88_refuted"
   ],
   "note": "False of the code: Service.verify checks nothing, so that enums are accepted as request and response types and two methods of a service may have one name or one Go name; a type found through a public import shows the package of the importing file (C88_refuted). Proved: both types of every method of every accepted file are found, and without public imports show the Go package and the name that the message or enum is declared with; in a Go package as in C86_package the name means it; the Go names of services and methods are exported identifiers. Streams and options of methods are C81."
  },
  {
   "property": "C89",
   "status": "proved",
   "theorems": [
    "C89_placed",
    "C89_object",
    "C89_given",
    "C89_directives"
   ],
   "note": "C89_placed and C89_object: definitions and objects of a loaded file correspond one to one, with kind, name, number, surrounding definition, order and comments; which comments a definition gets is C85. C89_directives: directives are read from the comments of the same object; for fields, whose directives are looked up by number in the model, under distinct numbers. C89_given: what C86 assumes about comments holds for these, if no inline comment of an enum has a percent sign (C84_refuted)."
  }
 ]
}