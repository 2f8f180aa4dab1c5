# Formal model of cloudwego/prutal in Rocq (Coq 8.16.1)

Everything is in `rocq/theories` (logical name `Verif`). Model files contain only definitions, each with the file and lines of
/repo it models; `*Spec.v` files contain the independent specifications the theorems refer to; `Props_*.v` files contain
the property theorems, each followed by `Print Assumptions` and by an `Example` or a lemma showing that its hypotheses are met.

## Layout

| model | specification | proofs | theorems | code modelled |
|---|---|---|---|---|
| `Base`, `Wire` | `WireSpec` | `WireProofs`, `WireConsume`, `WireFacts` | `Props_Wire` | `internal/protowire/wire.go`, scalar parts of `internal/wire/{encoder,decoder,size,wire}.go`, `SkipUnknown`-style consumption, `LenReserve`/`LenPack` |
| `Coder`, `MapTables` | – | `FastMaps` | `Props_Decode2` (C28) | `internal/wire/{encoder_map,decoder_map,size_map}.go`: the registration tables row by row |
| `Value`, `WireVal`, `Desc` | – | `ValFacts`, `DescProofs` | `Props_Desc` | Go values as trees; descriptors and coder selection of `internal/desc/{desc,type,tag,map,funcs}.go` |
| `Encoder`, `Sizer` | `MsgSpec` | `Writes`, `ScalarProofs`, `EncProofs`, `SizeProofs`, `EncFacts` | `Props_Encode`, `Props_Api` | `internal/prutal/{encoder,sizer}.go`, `prutal.go` |
| `Decoder` | `DecSpec` | `DecScalar`, `DecMap`, `DecProofs`, `DecFacts*`, `PoolProofs` | `Props_Decode`, `Props_Decode2` | `internal/prutal/decoder.go`, `UnsafeAppend` and slice growth |
| – | `RoundSpec` | `RoundTrip`, `RoundFacts` | `Props_Round` | composition of the two |
| `Span`, `Cache` | – | `SpanProofs`, `CacheProofs` | `Props_Runtime` | `internal/prutal/span.go` (span allocator), `internal/desc/map.go` and the double-checked cache in `desc.go` |
| `GoStr`, `TagParse`, `Parse` | `TagSpec` | `StrFacts`, `TagProofs`, `ParseProofs` | `Props_Parse` | struct tags and the parsing of one Go struct type: `internal/desc/{desc,type,tag}.go` |
| `Hist` | `HistSpec` | `HistProofs`, `HistInv`, `HistFin`, `HistMain`, `HistEnd`, `HistAgain` | `Props_Hist` | the same with the caches `cachedTypes`, `cachedStructs` and the `finalized` flags as mutable state, over any history of calls |
| `GenField` | `GenSpec` | `GenFieldProofs`, `GenMsgProofs` | `Props_Gen` | prutalgen: struct tags, Go types and unknown-field declaration of generated fields |
| `GenNames` | `NameSpec` | `NameProofs`, `ConflictProofs` | `Props_Names` | prutalgen: camel casing, name conflict resolution, which declarations are emitted |
| `Heap`, `EncoderH`, `SizerH` | `HeapSpec` | `HeapProofs`, `HeapTyped` | `Props_Heap` | internal/prutal: encoding and sizing of values in memory, with sharing and cycles |
| `Pools`, `PoolCalls` | – | `PoolSys`, `PoolRun` | `Props_Pool` | internal/prutal and internal/desc: calls that share encoderPool, decoderPool and the MapTmpVarsPools, interleaved at every access to a pooled object |
| `HMem`, `HDecoder` | `OwnSpec`, `HeapDecSpec` | `OwnMem`, `OwnPost`, `OwnCell`, `OwnDec`, `OwnDec2`, `OwnDec3`, `OwnDec4` | `Props_HeapDec` | the decoder on memory: allocations, loads, stores, slices that share arrays |
| `HEncoder` | `MarSpec` | `MarMem`, `MarProofs` | `Props_Mar` | the encoder on memory: every append, every write in place, and the message read meanwhile |
| `HMem`, `HDecoder` | `TreeSpec` | `TreeMem`, `TreePost`, `TreeDec` | `Props_Tree` | the list of objects behind a content, with multiplicity; no object twice |
| `AtnTable`, `Atn`, `LexFile` | `LexSpec`, `LexFileSpec` | `LexDfa`, `LexProofs`, `LexLayout`, `LexFileProofs` | `Props_Lex` | the lexer of .proto files: the serialized table, the ANTLR runtime that reads it, bytes to tokens |
| `LexCache` | – | `LexCacheProofs` | `Props_LexCache` | the automaton that all lexers share and build while they run, with goroutines interleaved |
| `ParserNames`, `Parser` | `ParserSpec` | `ParserProofs`, `ParserFull`, `ParserPredict` | `Props_Parser` | the parser of .proto files: the functions of the rules, Sync, the prediction with full context |
| – | – | `IdentProofs` | `Props_Ident` | which words can be names |
| `Sll` | `ParserFull` (`called`) | `SllProofs` | `Props_Sll` | AdaptivePredict with both stages: the first (SLL) stage, which follows all callers of a rule, and the one with full context |
| `ParserTable`, `Patn` | `PatnSpec` | `PatnProofs` | `Props_Patn` | the serialized network of the parser and the states named in its functions |
| `Compile` | `CompileSpec` | `CompileProofs`, `CompileMsgs`, `CompileScope` | `Props_Compile` | LoadProto behind the parser, up to the generated types |
| `Walk` | `SpellSpec` | `WalkProofs`, `WalkNodes`, `WalkDefs`, `WalkFile` | `Props_Walk` | the walk of the parse tree (what the listeners read off the contexts), from the bytes of a file to what is loaded |
| `StrLit` | `StrLitSpec` | `StrLitProofs` | `Props_StrLit` | prutalgen: string literals |
| `Paths` | `PathSpec` | `PathProofs` | `Props_Path` | prutalgen: command line, file search, output paths |
| `Listen` | `ListenSpec` | `ListenProofs` | `Props_Listen` | prutalgen: the listeners that build the schema |
| `GenText` | `GoScan`, `GoSyntax`, `TextSpec` | `GoScanProofs`, `GoReadProofs`, `GenTextProofs`, `GenTextFile`, `GenTextImport` | `Props_Text` | prutalgen: the Go text |
| `FileComments` | `FileCommentSpec` | `FileCommentProofs`, `FileCommentTokens` | `Props_FileComment` | prutalgen: comments from the bytes of a file |
| `CompileText` | `CompileTextSpec` | `CompileTextProofs` | `Props_CompileText` | the Go file written for the bytes of a .proto file |
| | `PackageSpec` | `PackageProofs` | `Props_Package` | what the type names mean in a generated Go package |
| | | | `Props_PackageGet` | the getters in a generated Go package |
| `WrapSearch` | `WrapSpec` | `WrapProofs` | `Props_Wrap` | where the wrapper types of oneofs are looked for |
| `ServiceGen` | `ServiceSpec` | | `Props_Service` | what services show of the types of their methods |
| `Placing` | `PlacingSpec` | `PlacingProofs` | `Props_Placing` | which object gets which comment and directives |
| `Comments` | `CommentSpec` | `CommentProofs` | `Props_Comment` | prutalgen: comments of definitions |
| `GenGetter` | `GetterSpec` | `GetterProofs` | `Props_Getter` | prutalgen: the getters of messages |
| `GenImport` | `ImportSpec`, `WriterSpec` | `ImportProofs`, `WriterProofs` | `Props_Import` | prutalgen: go_package, references to types, imports and the code writer |
| `GenEnum`, `GenPkg` | `EnumSpec`, `PkgSpec` | `EnumProofs`, `PkgProofs` | `Props_Enum` | prutalgen: the declarations of an enum, the package-level identifiers of a file |
| `Verify` | `VerifySpec` | `VerifyProofs` | `Props_Verify` | prutalgen: reading of numbers and the verification of messages and enums |
| `Directive` | `DirectiveSpec` | `DirectiveProofs` | `Props_Directive` | prutalgen: directives in comments, options |
| `Scope` | `ScopeSpec` | `ScopeProofs`, `ScopeCheck` | `Props_Scope` | prutalgen: resolution of type names |
| `Load` | `LoadSpec` | `LoadProofs` | `Props_Load` | prutalgen: loading of imports, ordering of files, recursive processing |

`Sample`, `SampleDec`, `SampleGo` hold the concrete schemas used by the examples.

## Trusted base

* Coq 8.16.1's kernel, including its virtual machine (`vm_compute` is used for table rows, examples and refutations).
* `Print Assumptions` prints "Closed under the global context" for every theorem of the manifest: none uses an axiom.
  `coqchk` lists seven axioms `Coq.ssr.ssrunder.Under_rel.*` of the standard library's ssreflect files, which are loaded
  but which no theorem depends on.
* That the definitions of the model files describe the code they cite. They were written by reading; nothing is extracted.
  Every definition says where it simplifies.
* The specifications (`*Spec.v`), which have to be read.

## Modelling decisions

* Bytes are `Coq.Init.Byte.byte`; fixed-width integers are raw bit patterns in `N` with explicit wrap-around; the platform
  has 64 bits, as the tests `t.Size == 8` in the code assume for pointers.
* Go memory is a tree of values (`val`): structs are lists of slots (several oneof members share one interface slot), slices
  carry their spare capacity, maps are association lists whose order is the iteration order of one traversal.
  For encoding, `Heap`, `EncoderH` and `SizerH` also model memory with sharing, interior pointers and cycles. Memory that was never written is the poison value `VUninit`.
* Struct descriptors live in an environment `nat -> sdesc`, so message types may be recursive.
* Encoder and sizer recur structurally on the remaining depth. The decoder takes the depth as `Z` (the code lets it become
  negative) and is fuelled by the input; theorems show that the fuel never runs out.
* Panics of the code (`[BUG] not struct`, slice bounds, nil map writes, out of range table sizes) are explicit outcomes.
* Back-patching of lengths is modelled on the whole buffer, as in the code.
* Map iteration order, addresses returned by the allocator, contents of uninitialised memory and of pooled temporaries,
  schedules of concurrent readers and writers, and histories of calls are universally quantified.
* A property the code violates has a theorem `..._refuted` with a concrete witness, and the part that holds is proved in a theorem
  with the suffix `_partial` (or under another name if it is a full statement of its own).

## Not modelled

* `reflect` and the layout tricks of `internal/hack` (trusted to do what their comments say), and the garbage collector.
* `HMem`: an address is an object number, memory is not reclaimed, and a pointer to the unknown-field slice is the slice itself.
* `sync.Pool`, `sync.Mutex` and `atomic` are taken as sequentially consistent primitives; `Pools` lets a pool hand out any object
  put into it, or a new one, and drop objects at any time.
* 32-bit platforms.
* prutalgen: the cache of the parser's prediction, the recovery after a syntax error, `strconv.Unquote` (a parameter), the
  formatting of Go source text by gofmt (its printing is C84), RPC code (prutalgen writes none; services are
  loaded and resolved in C81, C83 and C88). `searchOneofWrappers` is modelled for structs without embedded fields (C87).

## Per property

| | property | how it is modelled and proved | status |
|---|---|---|---|
| C01 | Round trip | Induction on the depth; the decoder run record by record (C05) on the canonical records of C04. The nesting limit of the statement counts a message in a map twice, as Unmarshal does; C01_map_depth_refuted shows that Marshal itself accepts more. `C01_round_trip`, `C01_unmarshalled`, `C01_levels`, `C01_map_depth_refuted` | proved |
| C02 | Size equals encoded length | Simultaneous induction over encoder and sizer on the depth, up to a permutation of map entries. All generated-style schemas and all well-typed values, for outputs below 2^63 bytes. `C02_size_is_length` | proved |
| C03 | MarshalAppend preserves the prefix | Frame lemma for every append function. `C03_append_keeps_prefix` | proved |
| C04 | Marshal emits canonical protobuf | A specification from values to records (MsgSpec.v), equality with the output of the encoder. Outputs below 2^63 bytes. `C04_canonical`, `C04_ascending` | proved |
| C05 | Unmarshal follows the protobuf record semantics | The decoder is the grammar of WireSpec.v followed by a fold of a per-record effect (DecSpec.v); the decoder's field cache is eliminated by an invariant. The per-record effects are in DecSpec; choices of the code that differ from protobuf are marked QUIRK there. `C05_fold_of_records`, `C05_records_unique` | proved |
| C06 | int32 sign extension and integer interop | Arithmetic on N. `C06_int32_writer`, `C06_int32_positions`, `C06_decode_positions` | proved |
| C07 | Encoding recursion limit | Induction on the depth; a second encoder and sizer that follow references in a heap, and a simulation showing that they do what the first do on the tree seen from the pointer. C07_encode_depth is about tree values; C07_memory and C07_cyclic about values in memory with sharing, interior pointers and cycles; C07_trees reduces these to trees. `C07_encode_depth`, `C07_memory`, `C07_cyclic`, `C07_trees`, `C07_nil` | proved |
| C08 | Decoding recursion limit | For every n an input nested n levels through maps that is accepted; induction for the rest. False of the code: nesting through map values is not limited. Proved for nesting through fields and lists. `C08_refuted`, `C08_limit_partial` | partial |
| C09 | Unmarshal is total and memory safe | Fuelled decoder with panics as results; fuel shown to suffice, panics shown impossible. Typed nil pointers, which the property excludes, panic (C09_nil_refuted). `C09_total`, `C09_not_pointer`, `C09_nil_refuted` | proved |
| C10 | Truncated input is rejected | Induction over the records of the grammar. `C10_truncated` | proved |
| C11 | Unknown fields are preserved | `C11_unknown_kept`, `C11_reemitted` | proved |
| C12 | Absent fields stay untouched | `C12_untouched` | proved |
| C13 | Last value wins | Also covers pointer fields. `C13_last_wins` | proved |
| C14 | Repeated fields accumulate in order | For elements held by value the new element starts from what the spare capacity holds (stale_refuted shows the consequence). `C14_appends`, `C14_stale_refuted` | proved |
| C15 | Oneof exclusivity | `C15_last_member`, `C15_one_emitted` | proved |
| C16 | Order independence across fields | `C16_order` | proved |
| C17 | Concatenation is sequential merge | `C17_concat` | proved |
| C18 | Decoder allocator hands out disjoint aligned blocks | Invariant over arbitrary sequences of requests. `C18_blocks`, `C18_writes` | proved |
| C19 | Descriptor cache is linearizable | Labelled transition system with readers and writers interleaved at every atomic step; invariant. `C19_lookup`, `C19_fresh`, `C19_one_descriptor`, `C19_published_once` | proved |
| C20 | Field lookup | Parsed tables against the list of fields. `C20_field_lookup` | proved |
| C21 | Struct tag parsing | Strings; the tag text against a grammar. False of the code when a default value contains a comma followed by a word of the tag syntax; proved for all other tags. `C21_refuted`, `C21_tags_partial`, `C21_numbers`, `C21_groups` | partial |
| C22 | Descriptor validation is type safe | Case analysis of coder selection against the memory layout of the Go type. False of the code: some unsupported field types are accepted (the exact list is proved). Types without them are safe. `C22_refuted`, `C22_accepted`, `C22_safe_partial` | partial |
| C23 | Scalar wire codecs are inverse bijections | Arithmetic on N. All 32/64-bit values, all continuations. `C23_varint_writers`, `C23_varint_canonical`, `C23_varint_roundtrip`, `C23_zigzag_writers`, `C23_zigzag_bijection`, `C23_fixed32`, `C23_fixed64`, `C23_fixed_little_endian`, `C23_bool`, `C23_tag_roundtrip` | proved |
| C24 | SizeVarint is exact | Arithmetic on N. `C24_SizeVarint` | proved |
| C25 | Unknown record skipping | Fuelled consumption against the inductive grammar of groups. Exact grammar; the effective group depth limit is 10001. `C25_skip_unknown`, `C25_skip_safe`, `C25_self_delimiting` | proved |
| C26 | Length back-patching | List reasoning on the whole buffer. `C26_LenPack` | proved |
| C27 | Packed lists | List induction. `C27_packed`, `C27_packed_field` | proved |
| C28 | Map fast paths equal the generic path | Every row of the registration tables by computation, entries for all values. Encoding and sizing proved; decoding proved except for bools, where the paths differ (refuted). `C28_append`, `C28_size`, `C28_decode_partial`, `C28_bool_refuted` | partial |
| C29 | No uninitialised memory is exposed | No value reachable from the result contains the poison value. `C29_initialised` | proved |
| C30 | Descriptor parsing is history independent | A heap of descriptors with the caches as state; invariant over all histories of calls; bisimulation of the graph with the declarations. False of the code: after a type failed or panicked, an invalid type in a cycle with it is accepted, with a descriptor that has a nil struct. Proved: valid types are accepted, with a faithful descriptor, after every history; and as long as no call failed exactly the valid types are accepted (if no map key contains a struct); and a call that failed fails again. `C30_refuted`, `C30_refuted_more`, `C30_valid_partial`, `C30_clean_partial`, `C30_again_partial` | partial |
| C31 | nil messages | False of the code for nil interfaces and for types with by-value message fields (witnesses in the refuted theorem); proved for all other types. `C31_nil_agree_partial`, `C31_nil_refuted` | partial |
| C32 | Oneof presence survives the round trip | False of the code for members holding a zero value; proved for all other members. `C32_refuted`, `C32_kept_partial` | partial |
| C33 | Explicit presence of optional fields survives | False of the code for optional bytes; proved for pointer fields. `C33_refuted`, `C33_pointer_partial` | partial |
| C34 | Map iteration order is immaterial | Decoding: for messages whose stored unknown bytes are well-formed and whose nesting is within the limit of C01. `C34_orders_encode`, `C34_decodes_equal` | proved |
| C35 | Map entries: last key wins | `C35_last_key` | proved |
| C36 | Overlong varints | `C36_overlong_varints`, `C36_rejected` | proved |
| C37 | Packed/unpacked interoperability | False of the code in two ways (refuted); the rest is proved. `C37_refuted`, `C37_mixed_partial` | partial |
| C38 | Map entries in any legal form | False of the code for reordered, missing or interleaved fields; proved for entries key-then-value. `C38_refuted`, `C38_ordered_partial` | partial |
| C39 | Wire type mismatch is never misread | `C39_wire_type` | proved |
| C40 | nil elements of repeated/map messages | `C40_nil_elements`, `C40_zero_is_empty`, `C40_list_survives`, `C40_map_survives` | proved |
| C41 | Bool decoding is uniform | False of the code for varints other than 0 and 1; proved for those. `C41_refuted`, `C41_canonical_partial` | partial |
| C42 | Slice growth | `C42_growth`, `C14_appends` | proved |
| C43 | Repeated occurrences of a singular message field merge | False of the code for messages held by pointer (the last occurrence replaces); proved for messages held by value. `C43_refuted`, `C43_by_value_partial` | partial |
| C44 | Generated struct tags are understood by the runtime | False of the code for packed=false in proto3, which is ignored; proved otherwise. `C44_refuted`, `C44_tags_partial` | partial |
| C45 | GoCamelCase yields exported identifiers | List induction on bytes. `C45_identifiers`, `C45_snake` | proved |
| C46 | Generated field names do not collide | Invariant of the renaming loop. The getters of oneofs, which the resolution ignores, are in C58. `C46_fields`, `C46_stable` | proved |
| C47 | Oneof wrapper names do not collide | False of the code: wrappers are not compared with each other. They always differ from nested types, and from each other unless one field is named like another followed by underscores. `C47_refuted`, `C47_wrappers_partial` | partial |
| C48 | Files are resolved dependencies first | Depth-first search with visited set against reachability and topological order. `C48_load`, `C48_sort` | proved |
| C49 | Field/enum number verification | False of the code for reserved ranges in octal or hexadecimal, enum values 19000 to 19999 and -2^31; proved for all other messages and enums. `C49_refuted`, `C49_verified_partial`, `C49_errors` | partial |
| C50 | Failed Unmarshal leaves no garbage | False of the code: after a failed Unmarshal a oneof member can hold memory that was never written. What remains true is proved. `C50_failed_refuted`, `C50_failed_partial` | partial |
| C51 | Options and directives lookup | `C51_directives`, `C51_comments`, `C51_options`, `C51_has`, `C51_is_set` | proved |
| C52 | Type name resolution follows protobuf scoping | The search of the code against a separate definition of the rules of the language. The search differs from the rules in nine ways (C52_refuted); for all other names and files the type found is the one meant and nothing is found only if nothing is meant. `C52_refuted`, `C52_resolve_partial`, `C52_dot_partial`, `C52_unique`, `C52_scalar`, `C83_means_partial` | partial |
| C53 | Concurrent Marshal/Unmarshal do not interfere | Small-step machine of calls and pools; an invariant (objects have one owner) reduces every interleaving to a weakest-precondition argument about one call, which is related to the sequential functions. Marshal, Size and Unmarshal as programs that take objects from pools, read, write and return them; every interleaving, every choice of the pools and every earlier content. `C53_concurrent`, `C53_decoder_pools` | proved |
| C54 | Encoding a decoded encoding again changes nothing | False of the code with messages held by value; proved without. `C54_refuted`, `C54_encode_again_partial` | partial |
| C55 | Unusable struct types are reported, not fatal | False of the code for field numbers of 2^31 and more; proved otherwise. `C55_refuted`, `C55_no_panic_partial` | partial |
| C56 | Generated messages work with the runtime | `C56_accepted`, `C56_safe` | proved |
| C57 | The Go type of a generated field shows its label and presence | False of the code for LEGACY_REQUIRED presence in edition 2023; proved otherwise. `C57_refuted`, `C57_types_partial`, `C57_unique` | partial |
| C58 | Fields and methods of a generated message type do not clash | False of the code for getters of oneofs and XXX_OneofWrappers; proved when no name camel-cases to one starting with Get or to XXX_OneofWrappers. `C58_refuted`, `C58_selectors_partial` | partial |
| C59 | Every declared message and enum is generated exactly once | False of the code for enums inside nested messages, which are not generated; proved for all others. `C59_refuted`, `C59_declarations_partial` | partial |
| C60 | Unknown fields are kept exactly when asked for | `C60_unknown` | proved |
| C61 | Field numbers and enum values are read as written | Literals are read correctly; the range of field numbers is not checked. `C61_range_refuted`, `C61_literals` | partial |
| C62 | Generated enum constants, maps and String agree with the enum | EnumGen as a list of declarations, with what String and the map literals then do; induction over the values. C62_values needs distinct value names, as protobuf does; that the declarations compile is C63 (C62_compiles_partial is the part for one enum). `C62_strings`, `C62_values`, `C62_constants`, `C62_names`, `C62_compiles_partial` | proved |
| C63 | The package-level identifiers of a generated file do not clash | Identifiers as rendered keys; rendering is injective by splitting at underscores; witnesses for the clashes. False of the code in four ways; proved for names in the usual style. `C63_refuted`, `C63_style_partial` | partial |
| C64 | References to types of other files resolve in the generated Go code | The references a file contains and the map of packages; Go grammar of import declarations with a unique reading; what a qualified identifier refers to. False of the code when go_package gives a name that is not the last element of the path, when two imported packages have the same last element, and for a type reached by a public import of another Go package; proved for all other sets of files. `C64_refuted`, `C64_imports_partial` | partial |
| C65 | Getters return the value or the default | Getters as small Go programs with their typing and evaluation; zero expressions as texts. False of the code: the option default and the rule that an enum defaults to its first value are ignored (the zero value is returned), an enum of a package whose path ends in x does not compile, and a oneof that holds a nil wrapper makes the getter panic. Proved otherwise. `C65_refuted`, `C65_package_refuted`, `C65_getters`, `C65_compiles`, `C65_complete`, `C65_default_partial` | partial |
| C66 | go_package and the M option determine import path and package name | SetGoPackage on strings; last path element by its specification. False of the code: the M option loses against the option in the file, and the last element of a path need not be an identifier. Proved for one source of the package. `C66_refuted`, `C66_go_package_partial`, `C66_not_set` | partial |
| C67 | A code writer produces its file as laid out, and always the same | The calls of a CodeWriter as a list; buffer and map as functions of it; sorted permutations are unique. False of the code when the header contains the place holder of the imports; proved otherwise, for every history of calls, map order and sorting algorithm. `C67_refuted`, `C67_writer_partial` | partial |
| C68 | The command line determines which file is read and where the Go file is written | Path.Clean, Join and Abs on elements; a path means a place (list of names) given by an inductive relation, and cleaning is shown to give one path per place; main as the list of its writes. False of the code: paths=source_relative ignores -go_out, with paths=import files of the same name and import path replace each other silently, and options separated by commas or with unknown values are ignored. Proved: search, places, when two files share a place, what is written in a run, and which options count. `C68_refuted`, `C68_search`, `C68_import`, `C68_inside`, `C68_source`, `C68_source_partial`, `C68_distinct_import`, `C68_distinct_source`, `C68_run`, `C68_stopped`, `C68_paths`, `C68_M`, `C68_clean` | partial |
| C69 | String literals in a .proto file have the value the language gives them | The unescaping loop on bytes against an inductive grammar of literals (UTF-8, escapes, longest digits); soundness by induction on fuel, completeness on the length of the text. False of the code: of adjacent literals only the first counts, \X is accepted by the grammar but then rejected, and \u, \? and escapes with fewer digits are no tokens. Proved for every single literal without \X: the code gives it a value iff the language does, and the same one. `C69_refuted`, `C69_literal_partial`, `C69_lexed`, `C69_other`, `C69_import`, `C69_accepted`, `C69_lexer_refuted`, `C69_token`, `C69_is_token` | partial |
| C70 | Unmarshal touches only the memory of its message | A memory of objects, slices and locations; an ownership relation between memory and values; a simulation between the decoder on memory and the decoder on values, step by step. C70_copied_refuted shows that the ownership hypothesis is needed: a shallow copy of a message sees its unknown bytes overwritten. `C70_memory`, `C70_returns`, `C70_input`, `C70_others`, `C70_new`, `C70_two`, `C70_copied_refuted` | proved |
| C71 | Comments and directives go to the definition they stand at | Token lists with channels and the set of consumed tokens; the spec says by positions which comment follows or precedes a definition; an invariant of the walk (what is consumed lies in gaps of earlier definitions) gives the equality. Proved for every file: which comments a definition and the file get, and that no comment is given twice. False of the code: a comment on the line of an import, package or option, or behind an opening brace, is given to the definition on the next line together with its directives, and a percent sign in the comment of an enum is read as a verb. `C71_comments`, `C71_unique`, `C71_once`, `C71_not_both`, `C71_directives`, `C71_refuted`, `C71_message_end`, `C71_enum_line_partial`, `C71_enum_line_refuted` | partial |
| C72 | The loaded schema is what the file says | The parse tree is a nested type, the calls of the tree walker a list of events, the objects two heaps with stacks of indices; the specification lists the parts of the text by kind; induction over the nesting with a frame (what the walk of an element leaves alone). The walk over every parse tree ends in the one tree the text means, or in a fatal error exactly if it has none; the comments are C71 and the loading of imports is that of Load.v. `C72_mirror`, `C72_unique`, `C72_once`, `C72_oneofs` | proved |
| C73 | No two parts of a decoded message share memory | The objects behind a content are listed with multiplicity, including spare capacity; every step of the decoder on memory keeps the list free of repetitions and made of old parts and new objects; paths into the message give the consequence for users. For the decoder on memory. An object here is one allocation handed out; that the pieces the span allocator hands out do not overlap is proved about Span.v (C18). `C73_tree`, `C73_new`, `C73_apart`, `C73_independent`, `C73_determined`, `C73_two` | proved |
| C74 | MarshalAppend writes only the spare capacity of its buffer | The encoder on memory, with appends as writes to an array or moves to a new one; a relation that says what may have been written since the start of the call; the message keeps its meaning along every write, which gives a simulation with the encoder on values. For the encoder on memory. The message may share memory with the buffer in every way but one: its strings, []byte and unknown fields must not lie in the spare capacity of the buffer; C74_overlap_refuted shows that this condition is needed, and C74_reuse that a decoded message always meets it for the array it was decoded from. `C74_marshal`, `C74_prefix`, `C74_others`, `C74_new`, `C74_Marshal`, `C74_reuse`, `C74_overlap_refuted` | proved |
| C75 | A .proto file is cut into the tokens of the protobuf grammar | The serialized table as it is in the source, the deserializer, closures, sets of configurations with their hashes, and the matching loop; the kinds of tokens as regular expressions with an inductive meaning; derivatives, and a bisimulation check of 233 pairs of states for one representative of each of 78 classes of characters, run by the kernel. The table of the lexer, copied from the generated file, and the simulator of the ANTLR runtime are run against regular expressions by a check of all pairs of reachable states, done by the kernel; the theorems hold for files of every length and all bytes. The cache of DFA states is C78. `C75_total`, `C75_tokens`, `C75_only`, `C75_unique`, `C75_plain` | proved |
| C76 | A .proto file with characters that belong to no token is refused | The errors of the lexer are items of its output and go to the console; a pair of files with the same tokens refutes the claim for any parser. False of the code: parseInput replaces the error listeners of the parser but not those of the lexer, so that characters that belong to no token are printed to stderr and dropped, and code is generated. Proved: exactly the files that cannot be cut into tokens are told on stderr; otherwise no character is dropped. `C76_refuted`, `C76_told_partial`, `C76_all_partial` | partial |
| C77 | Layout and comments do not change what the parser reads | Written files and layout as inductive relations; the same check of all states says which characters can follow a token, from which the tokens of the new text follow. For what the parser reads. What the comments are used for is C71. `C77_layout`, `C77_same`, `C77_insert`, `C77_blanks` | proved |
| C78 | What was read before does not change the tokens of a file | Programs whose steps are the operations on the shared automaton, interleaved in any order; invariant: every state has the configurations of one reachable set, every edge leads where the configurations lead; the hashes of all reachable sets differ (computed). For any number of goroutines and files: the operations on the shared automaton (start state, look-up and addition of a state, look-up and addition of an edge, each under its mutex in the code) interleave in any order. The configurations and the accepted token of a state, which do not change once it is in the automaton, are read without a mutex; the memory model of Go is not modelled. `C78_same`, `C78_ends`, `C78_history` | proved |
| C79 | A .proto file is accepted exactly when it is a sentence of the grammar | The functions of the parser as a small language of tokens, calls, choices and loops, run with a fuel that is proved enough; soundness by induction on the run; completeness by a check of the next-token sets of all rules (LL(1) but for the calls of AdaptivePredict); the prediction with full context is proved right: it simulates all alternatives on the rest of the tokens; the first (SLL) stage follows all callers of a rule, so that it loses no alternative and an answer of it leaves no other. The 53 functions of the generated parser, their Sync calls and lookahead sets, and the prediction with full context; the grammar of the specification is written by hand from Protobuf.g4. Both stages of the prediction are modelled (Sll.v): when the first stage sees a conflict and what is answered where nothing is viable are arbitrary, and the theorems hold for all choices. The cache of the first stage is not modelled. Error recovery is not modelled: the model stops at the first error, as the file is then refused. `C79_ends`, `C79_tree`, `C79_leaves`, `C79_error`, `C79_accepts`, `C79_same`, `C79_prediction`, `C79_two_stages`, `C79_file`, `C79_adaptive`, `C79_adaptive_accepts`, `C79_adaptive_same` | proved |
| C80 | Every word can be a name | A word has one of the kinds of the rule ident but for three words; derivations are closed under replacing one such token by another; a witness for the three words. False of the code: a word that is a keyword can be a name, but required (forgotten in the rule keywords) and inf and nan (lexed as float literals) cannot. Proved: every other word can stand where an identifier stands. `C80_refuted`, `C80_tokens_partial`, `C80_names_partial` | partial |
| C81 | What is loaded from a .proto file is what its text says | The getters of the contexts and the order of the listener calls over the trees of the parser model; the specification says by itself how the statements of a file are written as tokens; by inversion of derivations, construct by construct, every tree gives the calls of a file that its tokens spell, and the converse builds derivations; with C72, C75 and C79 this goes from bytes to what is loaded. From the bytes of one file to the loaded definitions, before imports are loaded and names are resolved. The grammar lets `option foo = 1;` in a message be read as a field of type option, so that a text can spell two files; the theorem says that one of them is loaded. Comments are C71 and C85. `C81_walk`, `C81_sentences`, `C81_any`, `C81_no_panic`, `C81_error`, `C81_same`, `C81_file`, `C81_adaptive` | proved |
| C82 | The table in the parser is the grammar | The table, copied, is read by the deserializer of C75; every state of the network is given the part of a rule it stands for, by a walk of network and grammar together, and a computed check of all transitions against this; then both directions by induction, on the way and on the height of the derivation. The serialized network is copied number by number (ParserTable.v) and read by the model of the deserializer; the states named in the functions are copied from the SetState calls. verifyATN, which only panics on networks that ANTLR does not make, is not modelled. Prediction itself works on the parts of rules that the states stand for, not on the states (Sll.v). `C82_table`, `C82_rules`, `C82_file`, `C82_states`, `C82_sync`, `C82_decisions` | proved |
| C83 | Files that LoadProto accepts become messages that survive the wire | The objects of several loaded files, with the search for type names among them and the numbers checked; what the generator needs of a declaration is read off the tokens that spell it; the descriptors of structs that contain each other are built by rounds along the nesting. Joins C81 (bytes to objects), C49 (numbers), C56 (generated types) and C01, C09 (runtime). What LoadProto does not check itself is the record legal_decl of CompileSpec.v, and a hypothesis. Directives are given from outside; strconv.Unquote is a parameter as in C56. The names of fields and oneofs and the keys of maps are shown to be what the generator needs from the tokens of the file. `C83_reached`, `C83_legal`, `C83_fields`, `C83_types`, `C83_one_path`, `C83_runs`, `C83_typed` | proved |
| C84 | The Go text that is written declares the generated types | The calls of ProtoGen, EnumGen, MessageGen, FieldGen and OneofGen line by line; the lexical rules and grammar of Go as a reader of texts, written down apart from the generator; the reader, run on what the writer returns, gives the declarations of TextSpec.v, which in turn mean the types of GenField.v and the methods of GenGetter.v. False as stated: the inline comment of an enum is part of the format of Fprintf, and a percent sign in it can swallow the end of the comment and with it the rest of the file (C84_refuted). Otherwise proved for every file whose names are words of Go and whose comments are comments of Go. The bodies of functions are compared as tokens. gofmt, which runs on the text, is not modelled. `C84_file_partial`, `C84_message`, `C84_getters`, `C84_refuted` | partial |
| C85 | Comments of a .proto file reach the generated Go file from its bytes | The tokens of all channels with their indices from the model of the lexer, the calls of the listeners with the first and last token of their nodes from the model of the parser; the nodes of a derivation are shown to lie in document order, which C71 asks for. Joins C71 with the lexer (C75), the parser (C79) and the listeners (C81): what C71 asks of the tokens and the places of definitions is proved of every file. A comment behind an import or behind an opening brace goes to the next definition (C71_refuted, C85_ex). `C85_file`, `C85_printed`, `C85_total` | proved |
| C86 | The Go file written for a .proto file declares its messages and enums | What Message.resolve, Enum.resolve and Type.resolve give to ProtoGen for the objects of loaded files (names, import paths, wrappers, nesting), joined with C83, C84 and C85; the names are shown to be words of Go from the tokens of the file; a file with an enum two levels deep refutes the full statement. Joins C83 (bytes to messages), C85 (comments) and C84 (Go text): that names are words of Go and comments comments of Go is proved of every accepted file here. False as stated for enums in nested messages, which are referred to and not declared (C86_refuted, see C59). Otherwise proved for import paths that are words and inline comments of enums without percent signs. C86_package shows that the type names mean the types they are generated for, for files without public imports and enums in nested messages, in a Go package that declares each type name once (C63 and C64 have the exceptions); C86_getters joins C65 to it: the getters are declared and return the field or its zero value; C86_message has the weaker condition scope_ok on the names of one message. `C86_file_partial`, `C86_header`, `C86_message`, `C86_package`, `C86_declared`, `C86_getters`, `C86_stands`, `C86_refuted` | partial |
| C87 | The members of the oneofs of a struct are found where generated code lists them | The Go values that reflection shows as trees with references into a memory, so that pointers may be shared or cyclic; the search with maxdepth as a function, a specification by places (lists of field indices) and their order; induction on the depth and on the fields; the descriptor built from what is found is that of Parse.v. False of the code: if the type has a method ProtoReflect its XXX_OneofWrappers is not looked at, and if ProtoReflect does not lead to a field OneofWrappers within five levels the members of its oneofs are silently left out (C87_refuted, C87_deep). Proved: which wrappers are found, that the search ends unless a pointer leads to itself, and that exactly the wrappers found become fields. `C87_reflect`, `C87_unique`, `C87_total`, `C87_method`, `C87_members_partial`, `C87_refuted`, `C87_endless`, `C87_deep` | partial |
| C88 | The services of a .proto file show the Go types of their methods | Service.resolve, Method.resolve and the methods of Type on the objects of the loaded files; the names of services and methods are read off the tokens that spell them; the search for the types is that of C52 and C83; an accepted set of three files refutes the full statement. False of the code: Service.verify checks nothing, so that enums are accepted as request and response types and two methods of a service may have one name or one Go name; a type found through a public import shows the package of the importing file (C88_refuted). Proved: both types of every method of every accepted file are found, and without public imports show the Go package and the name that the message or enum is declared with; in a Go package as in C86_package the name means it; the Go names of services and methods are exported identifiers. Streams and options of methods are C81. `C88_types_partial`, `C88_package_partial`, `C88_means_partial`, `C88_names`, `C88_refuted` | partial |
| C89 | Every definition of a .proto file becomes one object, which has its comments and directives | Slot_of tells from the state before a call of a listener which object the call makes; one lemma per call says which row of which table of names is added, and induction over the calls gives the correspondence of definitions and objects; extras_of is the instance of the comments and directives that C86 takes as given. C89_placed and C89_object: definitions and objects of a loaded file correspond one to one, with kind, name, number, surrounding definition, order and comments; which comments a definition gets is C85. C89_directives: directives are read from the comments of the same object; for fields, whose directives are looked up by number in the model, under distinct numbers. C89_given: what C86 assumes about comments holds for these, if no inline comment of an enum has a percent sign (C84_refuted). `C89_placed`, `C89_object`, `C89_given`, `C89_directives` | proved |
