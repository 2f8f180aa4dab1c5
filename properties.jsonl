{"id": "C01", "title": "Round trip", "statement": "For every message type accepted by prutal and generated by protoc-gen-go/prutalgen, and every message value v of it whose nesting stays within the recursion limits, Unmarshal(Marshal(v)) into a zero message succeeds and yields a message that is protobuf-equal to v (same scalars, presence of pointer scalars, list elements in order, map contents, oneof member, nested messages, unknown bytes), where the listed normalisations (empty vs nil slices/maps, nil list elements vs empty messages, zero oneof members dropped) are the only differences.", "quantifier": "all descriptors (recursive ones included), all values of the descriptor, all map iteration orders", "why_tests_cant": "infinitely many types x values; the interplay of 10 coders, fast paths and slow paths cannot be enumerated", "anchors": ["prutal.go:Marshal,Unmarshal", "internal/prutal/encoder.go:AppendStruct", "internal/prutal/decoder.go:DecodeStruct"]}
{"id": "C02", "title": "Size equals encoded length", "statement": "Whenever Marshal(v) succeeds, Size(v) succeeds and returns exactly len(Marshal(v)), for any map iteration orders used by the two calls; whenever Marshal fails with the depth error so does Size.", "quantifier": "all descriptors, all values, all pairs of map iteration orders", "why_tests_cant": "two independent traversals must agree on every value", "anchors": ["internal/prutal/sizer.go:SizeStruct", "internal/prutal/encoder.go:AppendStruct"]}
{"id": "C03", "title": "MarshalAppend preserves the prefix", "statement": "MarshalAppend(b, v) returns b followed by exactly the bytes Marshal(v) returns; it fails exactly when Marshal(v) fails, and the bytes of b are never modified.", "quantifier": "all prefixes b, all descriptors and values", "why_tests_cant": "length back-patching (LenPack) rewrites bytes in place relative to the end of the buffer; must hold for every prefix and every payload length", "anchors": ["prutal.go:MarshalAppend", "internal/prutal/encoder.go:AppendStruct", "internal/wire/encoder.go:LenPack"]}
{"id": "C04", "title": "Marshal emits canonical protobuf", "statement": "Marshal(v) is the concatenation, in ascending field-number order, of exactly the protobuf records that the protobuf encoding specification prescribes for the populated fields of v (minimal varints, zigzag, little-endian fixed, length-delimited strings/messages/packed lists/map entries), followed by the stored unknown bytes.", "quantifier": "all descriptors and values", "why_tests_cant": "needs an independent encoding specification compared on every value", "anchors": ["internal/prutal/encoder.go", "internal/wire/encoder.go", "internal/wire/encoder_list.go", "internal/wire/encoder_packed.go", "internal/wire/encoder_map.go"]}
{"id": "C05", "title": "Unmarshal follows the protobuf record semantics", "statement": "For every byte string b, Unmarshal(b) succeeds iff b splits into well formed records each acceptable for the message, and then the resulting message is the left-to-right fold of the per-record merge function over those records.", "quantifier": "all byte strings, all descriptors, all target messages", "why_tests_cant": "the decoder caches the previous field descriptor and temp map variables between records: correctness is a property of whole record sequences", "anchors": ["internal/prutal/decoder.go:DecodeStruct", "internal/protowire/wire.go:ConsumeTag"]}
{"id": "C06", "title": "int32 sign extension and integer interop", "statement": "A negative int32/enum is encoded as the 10-byte varint of its 64-bit sign extension by every path (singular, list, packed, map key, map value), and decoding any varint into a 32-bit field keeps the low 32 bits, so int32/int64/uint32/uint64/bool fields are wire compatible.", "quantifier": "all 32/64-bit values, all encoding paths", "why_tests_cant": "2^32..2^64 values times several code paths", "anchors": ["internal/wire/encoder.go:UnsafeAppendVarintI32", "internal/wire/encoder_list.go:UnsafeAppendVarintI32List", "internal/wire/encoder_packed.go:UnsafeAppendPackedVarintI32"]}
{"id": "C07", "title": "Encoding recursion limit", "statement": "Marshal and Size return the depth error iff the value nests messages (through fields, lists or maps) more than 1000 deep, and otherwise succeed; they never recurse further than 1000 levels, even on cyclic values.", "quantifier": "all values including arbitrarily deep and cyclic ones", "why_tests_cant": "unbounded nesting", "anchors": ["internal/prutal/encoder.go:AppendStruct", "internal/prutal/sizer.go:SizeStruct", "internal/prutal/errors.go:defaultRecursionMaxDepth"]}
{"id": "C08", "title": "Decoding recursion limit", "statement": "Unmarshal never nests more than a fixed number of levels whatever the input: input nested deeper than the limit yields an error.", "quantifier": "all inputs", "why_tests_cant": "unbounded nesting depth of hostile input", "anchors": ["internal/prutal/decoder.go:DecodeStruct,DecodeMapPair,DecodeMapValue"]}
{"id": "C09", "title": "Unmarshal is total and memory safe", "statement": "For every byte string and every target that is a non-nil pointer to a message or no pointer at all, Unmarshal terminates and returns nil or an error: it never indexes or slices outside the input, never assigns to a nil map, never hits an internal panic, and consumes the whole input when it succeeds. (Typed nil pointers are written through and panic.)", "quantifier": "all byte strings, all well formed descriptors, all targets except typed nil pointers", "why_tests_cant": "hostile inputs are unbounded", "anchors": ["internal/prutal/decoder.go", "internal/protowire/wire.go", "internal/wire/decoder_map.go", "internal/wire/decoder_packed.go"]}
{"id": "C10", "title": "Truncated input is rejected", "statement": "If a valid encoding is cut in the middle of a record, Unmarshal returns an error (never a silent success).", "quantifier": "all encodings, all cut points", "why_tests_cant": "every crash/cut point of every encoding", "anchors": ["internal/protowire/wire.go:ConsumeVarint,ConsumeBytes,ConsumeFixed32,ConsumeFixed64", "internal/prutal/decoder.go"]}
{"id": "C11", "title": "Unknown fields are preserved", "statement": "Records with undeclared field numbers are appended verbatim, in order, to the message's unknown-field storage (if it has one), do not affect any declared field, and are re-emitted verbatim after the known fields by Marshal.", "quantifier": "all inputs and descriptors", "why_tests_cant": "all interleavings of known and unknown records incl. groups", "anchors": ["internal/prutal/decoder.go:appendToUnknownFields,resetUnknownFields", "internal/prutal/encoder.go:appendUnknownFields"]}
{"id": "C12", "title": "Absent fields stay untouched", "statement": "Unmarshal changes only the fields (oneof slots) whose numbers occur in the input, plus the unknown-field storage.", "quantifier": "all inputs, all prior contents of the target", "why_tests_cant": "prior contents are arbitrary", "anchors": ["internal/prutal/decoder.go:DecodeStruct"]}
{"id": "C13", "title": "Last value wins", "statement": "For a singular scalar/string/bytes field, after a successful Unmarshal the field holds the value of the last record with its number, whatever it held before.", "quantifier": "all record sequences, all prior contents", "why_tests_cant": "all histories of records", "anchors": ["internal/prutal/decoder.go:DecodeStruct"]}
{"id": "C14", "title": "Repeated fields accumulate in order", "statement": "For an unpacked repeated field, a successful Unmarshal appends the decoded elements in wire order after the elements already present; earlier elements are kept through every capacity growth.", "quantifier": "all record sequences and prior slices/capacities", "why_tests_cant": "growth points depend on history", "anchors": ["internal/prutal/decoder.go:DecodeStruct,ReallocSlice"]}
{"id": "C15", "title": "Oneof exclusivity", "statement": "After a successful Unmarshal a oneof interface holds the wrapper of the last oneof record on the wire with that record's value, and Marshal emits at most that one member.", "quantifier": "all record sequences", "why_tests_cant": "all histories", "anchors": ["internal/prutal/decoder.go:DecodeStruct", "internal/hack/hack.go:IfaceUpdate", "internal/prutal/encoder.go:AppendStruct"]}
{"id": "C16", "title": "Order independence across fields", "statement": "Swapping two adjacent records of different fields (not members of the same oneof, not both unknown) does not change the result of Unmarshal.", "quantifier": "all record sequences", "why_tests_cant": "all permutations of all inputs; the field cache makes the decoder stateful", "anchors": ["internal/prutal/decoder.go:DecodeStruct"]}
{"id": "C17", "title": "Concatenation is sequential merge", "statement": "For messages without unknown-field storage, Unmarshal(b1++b2) into v is the same as Unmarshal(b1) then Unmarshal(b2) into v, whenever b1 parses.", "quantifier": "all pairs of inputs, all targets", "why_tests_cant": "all splits of all inputs", "anchors": ["internal/prutal/decoder.go:DecodeStruct"]}
{"id": "C18", "title": "Decoder allocator hands out disjoint aligned blocks", "statement": "Over any sequence of allocation requests, every block returned by the decoder's pooled arena is suitably aligned, lies inside its arena chunk and overlaps no other block handed out, also across pooled decoder reuse.", "quantifier": "all histories of requests (sizes, power-of-two alignments), any chunk addresses", "why_tests_cant": "allocation histories are unbounded", "anchors": ["internal/prutal/span.go:span.Malloc", "internal/prutal/decoder.go:Decoder.Malloc"]}
{"id": "C19", "title": "Descriptor cache is linearizable", "statement": "Concurrent lookups without locks racing with (mutually exclusive) insertions always see either nil or the descriptor most recently published for exactly that type; an insertion never disturbs other types, in spite of bucket collisions.", "quantifier": "all interleavings of readers and writers, all type addresses", "why_tests_cant": "schedules", "anchors": ["internal/desc/map.go:mapStructDesc.Get,Set", "internal/desc/desc.go:GetOrParse"]}
{"id": "C20", "title": "Field lookup", "statement": "After parsing a struct type, looking up any field number (1..2^31-1) returns exactly the declared field with that number or nothing, and never indexes out of bounds.", "quantifier": "all sets of field numbers, all looked-up numbers", "why_tests_cant": "2^31 numbers, all tables", "anchors": ["internal/desc/desc.go:StructDesc.GetField,parseStruct"]}
{"id": "C21", "title": "Struct tag parsing", "statement": "parseStructTag recovers number, wire encoding, repeated/packed flags from every tag produced by protoc-gen-go/prutalgen, including name=, json=, proto3, enum= and def= parts.", "quantifier": "all tags", "why_tests_cant": "default values and names are arbitrary text", "anchors": ["internal/desc/tag.go:parseStructTag,parseKVTag"]}
{"id": "C22", "title": "Descriptor validation is type safe", "statement": "Every struct type accepted by descriptor validation is encoded/decoded through accessors that match the Go memory layout of its fields.", "quantifier": "all Go types and tags", "why_tests_cant": "all types", "anchors": ["internal/desc/desc.go:checkTypeMatch", "internal/desc/utils.go:IsFieldTypeMatchReflectKind", "internal/desc/funcs.go:getCoderType"]}
{"id": "C23", "title": "Scalar wire codecs are inverse bijections", "statement": "Varint, zigzag32/64, fixed32/64 decoding inverts encoding for every value, and the unrolled/branchy fast versions agree with the defining base-128/little-endian/zigzag arithmetic.", "quantifier": "all 32- and 64-bit values, any following bytes", "why_tests_cant": "2^64 values", "anchors": ["internal/protowire/wire.go", "internal/wire/encoder.go"]}
{"id": "C24", "title": "SizeVarint is exact", "statement": "SizeVarint(v) is the length of the varint encoding of v, between 1 and 10, and is the minimal possible.", "quantifier": "all 64-bit values", "why_tests_cant": "2^64 values; uses the 9/64 approximation of 1/7", "anchors": ["internal/protowire/wire.go:SizeVarint"]}
{"id": "C25", "title": "Unknown record skipping", "statement": "Skipping an unknown record consumes exactly that record as defined by the wire grammar (including arbitrarily nested groups with matching end markers), and rejects malformed, reserved, mismatched or over-deep (limit 10000) ones.", "quantifier": "all byte strings, all nestings", "why_tests_cant": "unbounded nesting", "anchors": ["internal/protowire/wire.go:ConsumeFieldValue,consumeFieldValueD"]}
{"id": "C26", "title": "Length back-patching", "statement": "Reserving one byte, appending any payload and calling LenPack yields the minimal varint of the payload length followed by the payload, leaving everything before it unchanged.", "quantifier": "all prefixes, all payload lengths", "why_tests_cant": "all lengths crossing varint size boundaries", "anchors": ["internal/wire/encoder.go:LenReserve,LenPack,lenPackSlow"]}
{"id": "C27", "title": "Packed lists", "statement": "Packed decoding of a packed encoding yields the same list for all eight element coders; packed decoding accepts exactly concatenations of valid elements and yields them in order.", "quantifier": "all lists, all packed payloads", "why_tests_cant": "lists of any length", "anchors": ["internal/wire/encoder_packed.go", "internal/wire/decoder_packed.go"]}
{"id": "C28", "title": "Map fast paths equal the generic path", "statement": "For every key/value coder pair with a specialised encoder, sizer or decoder, the specialised function has the same result as the generic map path.", "quantifier": "all registered coder pairs, all maps, all entry bytes", "why_tests_cant": "72 encoders, 61 decoder registrations, 90 sizers, all inputs", "anchors": ["internal/wire/encoder_map.go", "internal/wire/decoder_map.go", "internal/wire/size_map.go", "internal/prutal/encoder.go:AppendMapField", "internal/prutal/decoder.go:DecodeMapPair"]}
{"id": "C29", "title": "No uninitialised memory is exposed", "statement": "After a successful Unmarshal the message contains no memory that was not written by Unmarshal or present before (the arena is not zeroed).", "quantifier": "all inputs, all descriptors", "why_tests_cant": "uninitialised content is nondeterministic", "anchors": ["internal/prutal/span.go", "internal/prutal/decoder.go:mallocIfPointer,ReallocSlice,DecodeStruct"]}
{"id": "C30", "title": "Descriptor parsing is history independent", "statement": "Whether and how a type is accepted does not depend on which other types were parsed (or failed) before.", "quantifier": "all histories of first uses of types", "why_tests_cant": "histories of failures with cyclic types", "anchors": ["internal/desc/desc.go:GetOrParse,parseStruct,FinalizeFields", "internal/desc/type.go:parseType"]}
{"id": "C31", "title": "nil messages", "statement": "Size and Marshal agree on nil pointers: Size((*T)(nil)) = len(Marshal((*T)(nil))), and nil nested messages encode as absent/empty.", "quantifier": "all types", "why_tests_cant": "all types", "anchors": ["prutal.go:Size,MarshalAppend", "internal/prutal/prutal.go"]}
{"id": "C32", "title": "Oneof presence survives the round trip", "statement": "A set oneof member, including one holding its zero value, is still set after Marshal and Unmarshal.", "quantifier": "all oneof values", "why_tests_cant": "needs all member types and values", "anchors": ["internal/prutal/encoder.go:AppendStruct (skipzero)"]}
{"id": "C33", "title": "Explicit presence of optional fields survives", "statement": "An optional field (pointer scalar, optional bytes) that is set to its zero value is still set after Marshal and Unmarshal; an unset one stays unset.", "quantifier": "all optional field types and values", "why_tests_cant": "all types", "anchors": ["internal/prutal/encoder.go:AppendStruct (skipzero)"]}
{"id": "C34", "title": "Map iteration order is immaterial", "statement": "Encodings of the same value under different map iteration orders have equal length and differ only by permuting the entries of map fields, and decode to equal messages.", "quantifier": "all iteration orders at all nesting levels", "why_tests_cant": "Go randomises iteration order", "anchors": ["internal/prutal/encoder.go:AppendMapField", "internal/wire/encoder_map.go"]}
{"id": "C35", "title": "Map entries: last key wins", "statement": "Decoding map entries inserts each key with the value of its last entry on the wire and keeps all other keys.", "quantifier": "all entry sequences, all prior maps", "why_tests_cant": "histories of entries", "anchors": ["internal/prutal/decoder.go:DecodeMapPair", "internal/desc/type.go:TmpMapVars"]}
{"id": "C36", "title": "Overlong varints", "statement": "Any (possibly non-minimal) varint of at most 10 bytes denoting a 64-bit value is accepted with that value; anything longer or exceeding 64 bits is rejected.", "quantifier": "all byte strings", "why_tests_cant": "all byte strings", "anchors": ["internal/protowire/wire.go:ConsumeVarint"]}
{"id": "C37", "title": "Packed/unpacked interoperability", "statement": "Repeated scalar fields accept both packed and unpacked records irrespective of the declared packing, and several packed chunks concatenate.", "quantifier": "all mixtures of packed and unpacked records", "why_tests_cant": "all histories of records", "anchors": ["internal/prutal/decoder.go:DecodeStruct"]}
{"id": "C38", "title": "Map entries in any legal form", "statement": "Map entries with fields in either order, with missing key or value (defaults) or with unknown extra fields are accepted as the protobuf specification demands.", "quantifier": "all entry encodings", "why_tests_cant": "all encodings of an entry", "anchors": ["internal/prutal/decoder.go:DecodeMapKey,DecodeMapValue", "internal/wire/decoder_map.go"]}
{"id": "C39", "title": "Wire type mismatch is never misread", "statement": "A record whose number is declared but whose wire type does not fit the field makes Unmarshal return an error instead of storing a value.", "quantifier": "all fields, all records", "why_tests_cant": "all type/wire-type combinations and payloads", "anchors": ["internal/prutal/decoder.go:DecodeStruct"]}
{"id": "C40", "title": "nil elements of repeated/map messages", "statement": "nil elements in []*Msg and map[K]*Msg are encoded as empty messages, so list length and map keys survive the round trip.", "quantifier": "all lists/maps with nils at any position", "why_tests_cant": "all positions", "anchors": ["internal/prutal/encoder.go:AppendListField,AppendMapField"]}
{"id": "C41", "title": "Bool decoding is uniform", "statement": "A bool is decoded as true iff its varint is non-zero, identically for singular, repeated, packed and map positions.", "quantifier": "all varints, all positions", "why_tests_cant": "all varint encodings", "anchors": ["internal/prutal/decoder.go:DecodeStruct", "internal/wire/decoder_packed.go:DecodePackedBool", "internal/wire/decoder_map.go:decodeMap_Bool"]}
{"id": "C42", "title": "Slice growth", "statement": "While decoding n elements into an unpacked repeated field, capacity grows 0 -> 8 and then doubles, so at most log2(n) reallocations happen and capacity stays below max(8, 2n).", "quantifier": "all n, all prior slices", "why_tests_cant": "all n", "anchors": ["internal/prutal/decoder.go:ReallocSlice"]}
{"id": "C43", "title": "Repeated occurrences of a singular message field merge", "statement": "If a singular message field occurs several times on the wire, the occurrences are merged field-wise.", "quantifier": "all record sequences", "why_tests_cant": "all histories", "anchors": ["internal/prutal/decoder.go:DecodeStruct,mallocIfPointer"]}
{"id": "C44", "title": "Generated struct tags are understood by the runtime", "statement": "For every field the struct tag generated by prutalgen parses at run time to the same number, wire encoding, repeated and packed attributes as declared in the .proto file.", "quantifier": "all field declarations", "why_tests_cant": "all names/defaults/options", "anchors": ["prutalgen/pkg/prutalgen/code.go", "internal/desc/tag.go:parseStructTag"]}
{"id": "C45", "title": "GoCamelCase yields exported identifiers", "statement": "GoCamelCase maps every protobuf identifier (dotted or not) to a valid exported Go identifier and is idempotent on its results' alphabet.", "quantifier": "all identifiers", "why_tests_cant": "all strings", "anchors": ["prutalgen/internal/protobuf/strs/strings.go:GoCamelCase"]}
{"id": "C46", "title": "Generated field names do not collide", "statement": "Conflict resolution terminates and gives fields, their getters and oneof fields pairwise distinct Go names that avoid the reserved method names.", "quantifier": "all messages", "why_tests_cant": "all sets of names", "anchors": ["prutalgen/pkg/prutalgen/message.go:resolveFieldConflicts"]}
{"id": "C47", "title": "Oneof wrapper names do not collide", "statement": "Conflict resolution terminates and every oneof wrapper type name differs from all sibling nested types and from all other wrappers.", "quantifier": "all messages", "why_tests_cant": "all sets of names", "anchors": ["prutalgen/pkg/prutalgen/message.go:resolveOneofTypeConflicts"]}
{"id": "C48", "title": "Files are resolved dependencies first", "statement": "LoadProto's ordering of an acyclic import graph is a permutation of the files in which every importer precedes its imports (so that resolution in reverse order sees dependencies first).", "quantifier": "all acyclic import graphs", "why_tests_cant": "all graphs", "anchors": ["prutalgen/pkg/prutalgen/utils.go:sortProtoFiles"]}
{"id": "C49", "title": "Field/enum number verification", "statement": "verify rejects exactly the messages (enums) using a reserved or duplicated number (enum alias aware).", "quantifier": "all messages and enums", "why_tests_cant": "all number sets and ranges", "anchors": ["prutalgen/pkg/prutalgen/message.go:verify", "prutalgen/pkg/prutalgen/enum.go:verify", "prutalgen/pkg/prutalgen/reserved.go:In"]}
{"id": "C50", "title": "Failed Unmarshal leaves no garbage", "statement": "Even when Unmarshal fails, the target contains only previously present or decoded values.", "quantifier": "all inputs, all failure points", "why_tests_cant": "all crash points", "anchors": ["internal/prutal/decoder.go:DecodeStruct"]}
{"id": "C51", "title": "Options and directives lookup", "statement": "Options.Get returns the last value given; Directives parsing returns exactly the comma separated trimmed names of the //prutalgen: lines in order.", "quantifier": "all option lists and comments", "why_tests_cant": "all strings", "anchors": ["prutalgen/pkg/prutalgen/option.go", "prutalgen/pkg/prutalgen/directive.go"]}
{"id": "C52", "title": "Type name resolution follows protobuf scoping", "statement": "A type reference resolves to the innermost enclosing scope's declaration with that name.", "quantifier": "all nested scopes", "why_tests_cant": "all scope trees", "anchors": ["prutalgen/pkg/prutalgen/type.go:resolve", "prutalgen/pkg/prutalgen/message.go:getType"]}
{"id": "C53", "title": "Concurrent Marshal/Unmarshal do not interfere", "statement": "Pooled encoder/decoder scratch state reused between calls never influences results: any interleaving of pooled calls yields the same results as calls with fresh state.", "quantifier": "all histories of pool reuse", "why_tests_cant": "pool reuse schedules", "anchors": ["internal/prutal/encoder.go:encoderPool", "internal/prutal/decoder.go:decoderPool", "internal/desc/type.go:TmpMapVars"]}
{"id": "C54", "title": "Encoding a decoded encoding again changes nothing", "statement": "If Marshal(v) = s and Unmarshal(s) into a zero message gives v', then Marshal(v') succeeds and gives s again, up to the order of map entries.", "quantifier": "all message types and values within the nesting limits", "why_tests_cant": "infinitely many types and values; normalisations of nil/empty interact with the omission of zero values", "anchors": ["prutal.go:Marshal,Unmarshal", "internal/prutal/encoder.go:AppendStruct"]}
{"id": "C55", "title": "Unusable struct types are reported, not fatal", "statement": "The first use of any struct type (any tags, field types, oneof wrappers) in Marshal, Size or Unmarshal either succeeds in building its descriptor or returns an error; it does not panic.", "quantifier": "all struct declarations and tag texts", "why_tests_cant": "all tags and types", "anchors": ["internal/desc/desc.go:parseStruct", "internal/desc/tag.go:parseStructTag"]}
{"id": "C56", "title": "Generated messages work with the runtime", "statement": "For every legal message definition, the Go struct that the generator emits for it is accepted by Marshal, Size and Unmarshal: building its descriptor succeeds, the descriptor has exactly one entry per field of the message with its number and encoding, and the descriptor is one for which coding is safe.", "quantifier": "all legal message definitions: any fields, types, labels, maps, oneofs, options, directives and editions", "why_tests_cant": "unboundedly many message definitions; the generator and the runtime are only compared on examples", "anchors": ["prutalgen/pkg/prutalgen/code.go:MessageGen,FieldStructTag,FieldGen,OneofGen", "internal/desc/desc.go:parseStruct"]}
{"id": "C57", "title": "The Go type of a generated field shows its label and presence", "statement": "The Go type generated for a field is determined by its protobuf type, label, presence and the no_pointer setting: a slice for repeated, a map for map fields, a pointer for submessages and for scalars with explicit presence, and a plain value for scalars without explicit presence, in every edition.", "quantifier": "all fields, options, directives and editions", "why_tests_cant": "the combinations of edition, file option, field option, label and directive are many and each has its own default", "anchors": ["prutalgen/pkg/prutalgen/field.go:GoTypeName,IsPointer,genNoPointer"]}
{"id": "C58", "title": "Fields and methods of a generated message type do not clash", "statement": "The names of the struct fields and of the methods generated for a message (its getters, the getters of its oneofs, Reset, Marshal, Unmarshal, XXX_OneofWrappers and the field for unknown data) are pairwise distinct, so that the generated Go type compiles.", "quantifier": "all messages with legal protobuf names, with and without getters, unknown fields and the kitex methods", "why_tests_cant": "all sets of names; clashes need several names that only meet after camel-casing and renaming", "anchors": ["prutalgen/pkg/prutalgen/message.go:resolveFieldConflicts", "prutalgen/pkg/prutalgen/code.go:MessageGen,OneofGen"]}
{"id": "C59", "title": "Every declared message and enum is generated exactly once", "statement": "For every message and enum declared in a file, at the top level or nested at any depth, the generated Go code has exactly one type declaration, and it has no other message or enum types.", "quantifier": "all files: any number of enums and messages nested to any depth", "why_tests_cant": "unbounded nesting depth and width", "anchors": ["prutalgen/pkg/prutalgen/code.go:ProtoGen,MessageGen,EnumGen"]}
{"id": "C60", "title": "Unknown fields are kept exactly when asked for", "statement": "The type generated for a message keeps unknown fields exactly when the schema asks for it: the directive unknown_fields or no_unknown_fields of the message decides, else that of the file, else the gogoproto goproto_unrecognized option of the message, else goproto_unrecognized_all of the file, and the runtime finds that storage.", "quantifier": "all messages, directives and options without contradiction", "why_tests_cant": "the combinations of four sources, each of which can be absent, set or unset among any others", "anchors": ["prutalgen/pkg/prutalgen/message.go:genUnknownFields", "prutalgen/pkg/prutalgen/directive.go:IsSet", "internal/desc/desc.go:parseStruct"]}
{"id": "C61", "title": "Field numbers and enum values are read as written", "statement": "A decimal, octal or hexadecimal literal used as field number or enum value is read as the number it denotes and refused if that does not fit in 32 bits; field numbers outside 1 to 2^29-1 are refused.", "quantifier": "all integer literals of the grammar", "why_tests_cant": "all strings of digits in three bases", "anchors": ["prutalgen/internal/protobuf/text/decode_number.go:UnmarshalI32", "prutalgen/pkg/prutalgen/field.go:newField", "prutalgen/pkg/prutalgen/enum.go:ExitEnumField"]}
{"id": "C62", "title": "Generated enum constants, maps and String agree with the enum", "statement": "For every enum the generated code has one constant per value with its number; String of a number is the name of the first value declared with it, or its decimal notation if there is none; the map from names to numbers has exactly the declared pairs, and maps String of every declared number back to it; nothing but type and constants is generated when the mapping is switched off.", "quantifier": "all enums, with aliases, negative values and any settings, and all 32-bit numbers", "why_tests_cant": "all lists of values with any repetitions, and all numbers, declared or not", "anchors": ["prutalgen/pkg/prutalgen/code.go:EnumGen", "prutalgen/pkg/prutalgen/enum.go:resolve,genMapping,genNoPrefix"]}
{"id": "C63", "title": "The package-level identifiers of a generated file do not clash", "statement": "For every legal file the types, enum constants, enum maps and oneof wrapper types of the generated Go code have pairwise distinct identifiers, so that it compiles.", "quantifier": "all files: any number of enums and messages nested to any depth, with any names", "why_tests_cant": "all sets of names; clashes need names of different declarations that only meet after joining", "anchors": ["prutalgen/pkg/prutalgen/code.go:ProtoGen,EnumGen,MessageGen", "prutalgen/pkg/prutalgen/enum.go:resolve", "prutalgen/pkg/prutalgen/message.go:resolve"]}
{"id": "C64", "title": "References to types of other files resolve in the generated Go code", "statement": "In the Go file generated for any .proto file, every reference to a message or enum means, under the imports of that file, the Go type generated for the proto type it was written for; the imported packages have pairwise distinct names, none is the package of the file itself, and none is unused, so that the compiler accepts them.", "quantifier": "all sets of .proto files with any packages, go_package options and (public) imports, all references in them", "why_tests_cant": "all combinations of package names, import paths and chains of public imports; clashes need particular pairs", "anchors": ["prutalgen/pkg/prutalgen/type.go:GoName,GoImport,resolve", "prutalgen/pkg/prutalgen/codewriter.go:UsePkg,genImports", "prutalgen/pkg/prutalgen/code.go:FieldGen,EnumGen,MessageGen"]}
{"id": "C65", "title": "Getters return the value or the default", "statement": "For every field of a message a getter is generated that compiles; called on nil or on a message in which the field is not set it returns the default value of the field, and else the value. It never panics.", "quantifier": "all legal messages, fields, enum declarations, Go packages and contents of the message (nil pointers, oneofs with any member)", "why_tests_cant": "all schemas and all contents", "anchors": ["prutalgen/pkg/prutalgen/code.go:MessageGen", "prutalgen/pkg/prutalgen/field.go:GoZero"]}
{"id": "C66", "title": "go_package and the M option determine import path and package name", "statement": "\"path;name\" gives the Go import path and the package name; with \"path\" alone the name is the last element of the path, made an identifier; an M option on the command line wins over the option in the file.", "quantifier": "all option texts, from either source or both", "why_tests_cant": "all strings and combinations", "anchors": ["prutalgen/pkg/prutalgen/proto.go:setGoPackage", "prutalgen/pkg/prutalgen/prutalgen.go:loadProto,parseInput"]}
{"id": "C67", "title": "A code writer produces its file as laid out, and always the same", "statement": "After Reset(header, package) and any calls, Bytes is the header, the package clause, one import declaration and then exactly what was written, line by line; the declaration imports exactly the packages asked for, each once, with the alias asked for last, ordered by group and path. What was done before Reset does not show, and neither does the iteration order of Go maps.", "quantifier": "all sequences of calls, all headers, paths, aliases, grouping functions, map orders and sorting algorithms", "why_tests_cant": "map iteration order is random and call sequences are unbounded", "anchors": ["prutalgen/pkg/prutalgen/codewriter.go:Reset,UsePkg,genImports,F,Write,Bytes"]}
{"id": "C68", "title": "The command line determines which file is read and where the Go file is written", "statement": "For every argument prutalgen reads the file in the first of the -I directories (and then the working directory) that contains it, and writes one Go file: with paths=import in the directory of the Go import path in -go_out, with paths=source_relative at the same relative place as the .proto file, in -go_out. Different .proto files get different Go files. The last paths option counts, and an M option counts for the file it names, however that is spelled.", "quantifier": "all working directories, file systems, flags, arguments, options and paths (with ., .., repeated and trailing slashes)", "why_tests_cant": "Paths have unboundedly many spellings, and the outcome depends on the combination of flags, options, go_package and the files that exist", "anchors": ["prutalgen/main.go:main", "prutalgen/pkg/utils/args/go_opts.go:GenPathType,Proto2pkg", "prutalgen/pkg/prutalgen/prutalgen.go:searchProtoFile,fullFilename,loadProto", "prutalgen/pkg/prutalgen/code.go:SourcePath,Gen"]}
{"id": "C69", "title": "String literals in a .proto file have the value the language gives them", "statement": "The value of an option and the name of an imported file, when written as a string literal, is the string that the protobuf language assigns to that literal: characters stand for themselves in UTF-8, escapes for the byte or code point they denote, adjacent literals are concatenated, and a text that is no literal is rejected. Constants that are not strings are kept as written.", "quantifier": "all string literals (all characters, escapes and quotes, all lengths), all other constants", "why_tests_cant": "There are infinitely many literals; escapes interact with their right context (how many digits an escape takes, surrogate pairs, the end of the literal)", "anchors": ["prutalgen/pkg/prutalgen/utils.go:unmarshalConst", "prutalgen/internal/protobuf/text/decode_string.go:parseString,UnmarshalString", "prutalgen/internal/Protobuf.g4:STR_LIT_SINGLE"]}
{"id": "C70", "title": "Unmarshal touches only the memory of its message", "statement": "Unmarshal does to a message in memory what it does to the value: for every memory in which the maps, the list arrays and the unknown bytes of the message belong to that message only, the message afterwards holds the value (and the error) that decoding the value gives; nothing else that existed is written; nothing of the message refers to the input unless it did before, so the input may be reused; two decoded messages share no memory. A value that shares the unknown bytes with the message (a shallow copy) may change.", "quantifier": "all memories, messages with any sharing behind pointers, inputs (also in memory the message refers to), contents of pooled temporaries and capacities chosen by append", "why_tests_cant": "aliasing depends on every earlier history of the memory: spare capacity, reused slices, maps, shared strings; tests see only a few layouts", "anchors": ["internal/prutal/decoder.go:DecodeStruct", "internal/prutal/decoder.go:DecodeMapPair", "internal/prutal/decoder.go:ReallocSlice", "internal/prutal/decoder.go:appendToUnknownFields", "internal/prutal/decoder.go:mallocIfPointer", "prutal.go:Unmarshal"]}
{"id": "C71", "title": "Comments and directives go to the definition they stand at", "statement": "The comments directly above a definition, with no empty line in between, are its head comment, in order; the comment behind it on its line is its inline comment; nothing else is. No comment is given to two definitions or twice to one, the comments above the first token are those of the file, and the directives in a comment count for exactly the definition that gets it. The generated code repeats these comments unchanged.", "quantifier": "every token sequence of a lexed file and every set of definitions in it, nested to any depth", "why_tests_cant": "where a comment ends up depends on every token around it and on what earlier definitions have taken; tests try a few layouts", "anchors": ["prutalgen/pkg/prutalgen/comment.go:consumeHeadComment,consumeInlineComment", "prutalgen/pkg/prutalgen/message.go:EnterMessageDef", "prutalgen/pkg/prutalgen/prutalgen.go:parseInput", "prutalgen/pkg/prutalgen/code.go:genEnum"]}
{"id": "C72", "title": "The loaded schema is what the file says", "statement": "The schema that Load gives for a .proto file has every message, enum, field, oneof, service and method of the text, and nothing else: with the name, number, key and value type, labels, options, values, reserved ranges and stream flags written there, nested where the text nests them, in the order of the text, each knowing its parent. A oneof lists exactly the fields declared in it. Files with a number, literal, edition, known option or second package statement that cannot be read, or required outside proto2, are rejected, and no other; nothing panics.", "quantifier": "every parse tree of the grammar, with messages nested to any depth and any number of definitions", "why_tests_cant": "the listeners depend on stacks and on the last element of lists, so a definition can end up in the wrong place after any combination of nested definitions before it; tests try a few files", "anchors": ["prutalgen/pkg/prutalgen/message.go:EnterMessageDef,ExitMessageDef", "prutalgen/pkg/prutalgen/enum.go:EnterEnumDef,ExitEnumField", "prutalgen/pkg/prutalgen/field.go:newField,ExitField,ExitOneofField,ExitMapField", "prutalgen/pkg/prutalgen/oneof.go:EnterOneof", "prutalgen/pkg/prutalgen/option.go:ExitOptionStatement", "prutalgen/pkg/prutalgen/reserved.go:ExitReserved", "prutalgen/pkg/prutalgen/service.go:EnterServiceDef,EnterRpc,ExitRpc", "prutalgen/pkg/prutalgen/proto.go:ExitEdition,ExitPackageStatement,ExitImportStatement"]}
{"id": "C73", "title": "No two parts of a decoded message share memory", "statement": "After Unmarshal, with or without an error, no two parts of the message share memory, if none did before (a new message has none): changing one field, list element, map value, oneof or unknown-field bytes in place, or appending to it, never changes another part, nor another message that shared nothing with it. All of the message's memory is memory it had before or memory allocated by this call; memory outside the message is not written.", "quantifier": "every schema, message, input, state of the pooled temporaries and every choice of capacities by append", "why_tests_cant": "sharing shows only when a caller later changes a part in place; whether two parts share depends on the order of fields in the input, spare capacities and reused temporaries", "anchors": ["internal/prutal/decoder.go:DecodeStruct", "internal/prutal/decoder.go:DecodeMapPair", "internal/prutal/decoder.go:ReallocSlice", "internal/prutal/decoder.go:appendToUnknownFields", "prutal.go:Unmarshal"]}
{"id": "C74", "title": "MarshalAppend writes only the spare capacity of its buffer", "statement": "MarshalAppend(b, m) writes, of the memory that existed before the call, nothing but the bytes of b's array between len(b) and cap(b), also when it returns an error: the caller's b, the message, and every other string, []byte, variable, list and map keep their content. The result is b followed by the encoding of m, although the message is read while the buffer is written and may share memory with b[:len(b)]. With a full or nil buffer nothing that existed is written, and the result of Marshal is new memory. The one condition is that no string, []byte or unknown field of the message lies in the spare capacity of b.", "quantifier": "every schema, message in memory (with any sharing), buffer with any length, offset and capacity, and every choice of capacities by append", "why_tests_cant": "overwriting shows only for particular offsets, capacities and sharings; length prefixes are moved in place by amounts that depend on every nested size", "anchors": ["prutal.go:MarshalAppend", "internal/prutal/encoder.go:AppendStruct", "internal/wire/encoder.go:LenPack", "internal/wire/encoder.go:lenPackSlow", "internal/wire/encoder.go:UnsafeAppendString"]}
{"id": "C75", "title": "A .proto file is cut into the tokens of the protobuf grammar", "statement": "The bytes of a file are read as UTF-8 and the text is cut from left to right: each token is the longest prefix that is a token of some kind, and its kind is the first in the grammar with that text (so that a keyword is not an identifier, and a word that begins with a keyword is one word). Nothing is lost or added, the lexer always ends, and if the text cannot be cut this way it reports an error.", "quantifier": "every sequence of bytes", "why_tests_cant": "the lexer is a table of 5000 numbers interpreted by closures over configurations; a wrong edge shows only for particular texts", "anchors": ["prutalgen/internal/parser/protobuf_lexer.go:NewProtobufLexer", "prutalgen/internal/antlr/lexer_atn_simulator.go:LexerATNSimulator", "prutalgen/internal/antlr/lexer.go:NextToken", "prutalgen/internal/antlr/atn_deserializer.go:Deserialize", "prutalgen/internal/Protobuf.g4"]}
{"id": "C76", "title": "A .proto file with characters that belong to no token is refused", "statement": "If a file cannot be cut into tokens, prutalgen stops with an error and generates no code.", "quantifier": "every sequence of bytes and every parser behind the lexer", "why_tests_cant": "which characters are dropped, and whether the rest still parses, depends on the whole file", "anchors": ["prutalgen/pkg/prutalgen/prutalgen.go:parseInput", "prutalgen/internal/antlr/lexer.go:safeMatch", "prutalgen/internal/antlr/lexer.go:Recover", "prutalgen/internal/antlr/recognizer.go:NewBaseRecognizer"]}
{"id": "C77", "title": "Layout and comments do not change what the parser reads", "statement": "Blanks, line ends and comments may be put between any two tokens, removed or replaced, as long as two tokens that would join stay apart, and the parser reads the same tokens.", "quantifier": "every text and every way to lay it out", "why_tests_cant": "tokens may join with what follows in ways that depend on the kinds of both and on lookahead of any length", "anchors": ["prutalgen/internal/antlr/lexer_atn_simulator.go:execATN", "prutalgen/internal/antlr/common_token_stream.go:LT", "prutalgen/internal/Protobuf.g4"]}
{"id": "C78", "title": "What was read before does not change the tokens of a file", "statement": "The tokens found in a .proto file do not depend on the files read before it in the same process, nor on the files other goroutines read at the same time, although all lexers share one cache of automaton states; no such run fails or goes on for ever.", "quantifier": "every number of goroutines, every list of files for each, every interleaving of their operations on the shared cache; every history of files", "why_tests_cant": "the cache finds states by 32-bit hashes, and its contents depend on the order of all files read; a wrong answer needs a particular history or interleaving", "anchors": ["prutalgen/internal/antlr/lexer_atn_simulator.go:addDFAState", "prutalgen/internal/antlr/lexer_atn_simulator.go:addDFAEdge", "prutalgen/internal/antlr/lexer_atn_simulator.go:getExistingTargetState", "prutalgen/internal/antlr/dfa_state.go:Equals", "prutalgen/internal/parser/protobuf_lexer.go:ProtobufLexerLexerStaticData"]}
{"id": "C79", "title": "A .proto file is accepted exactly when it is a sentence of the grammar", "statement": "Loading a .proto file reports no syntax error exactly when its tokens are a sentence of the proto grammar that the repository publishes (Protobuf.g4). Then the tree that the rest of the generator walks derives these tokens: its leaves are all the tokens of the file in their order, no token is skipped or read twice, and the tree does not depend on how the parser chose between alternatives, as long as each choice was one the rest of the file allows. The parser ends on every file.", "quantifier": "every .proto file, every sequence of tokens, every strategy of prediction", "why_tests_cant": "the grammar is recursive, and which alternative is right can depend on tokens arbitrarily far ahead", "anchors": ["prutalgen/internal/parser/Protobuf.g4", "prutalgen/internal/parser/protobuf_parser.go (the functions of the rules)", "prutalgen/internal/antlr/default_error_strategy.go (Sync)", "prutalgen/internal/antlr/parser_atn_simulator.go (AdaptivePredict)"]}
{"id": "C80", "title": "Every word can be a name", "statement": "In a .proto file the keywords are not reserved: if a file is accepted, it is still accepted when the identifier that names a message, field, enum value, package, service or method is replaced by any other word made of a letter followed by letters, digits and underscores.", "quantifier": "every accepted .proto file, every identifier in it, every word", "why_tests_cant": "the words and the places where they can stand are unbounded", "anchors": ["prutalgen/internal/parser/Protobuf.g4 (ident, keywords, IDENTIFIER)", "prutalgen/internal/parser/protobuf_parser.go (Ident, Keywords)"]}
{"id": "C81", "title": "What is loaded from a .proto file is what its text says", "statement": "For every .proto file: if its text can be read as the statements of a file (names, types, numbers, labels, options, ranges, streams, as they are written), loading it gives definitions with the meaning of these statements or, if they have no meaning, ends with an error; if it cannot, loading ends with an error. Loading never panics, whatever the bytes.", "quantifier": "every sequence of bytes as the content of a .proto file", "why_tests_cant": "the space of texts is infinite; what is read off the parse tree depends on how rules nest, which optional parts are there and in which order getters find their children; tests see a few dozen files", "anchors": ["prutalgen/pkg/prutalgen/prutalgen.go: parseInput", "prutalgen/pkg/prutalgen/message.go", "prutalgen/pkg/prutalgen/field.go", "prutalgen/pkg/prutalgen/enum.go", "prutalgen/pkg/prutalgen/option.go", "prutalgen/pkg/prutalgen/reserved.go", "prutalgen/pkg/prutalgen/service.go", "prutalgen/internal/antlr/tree.go: ParseTreeWalker.Walk"]}
{"id": "C82", "title": "The table in the parser is the grammar", "statement": "The network serialized in the generated parser can be read without a panic; on the ways through each of its rules it reads exactly the token sequences that the grammar derives; each function of the parser names, before each match, call and synchronisation, a state of the network that expects what the rest of the function expects, at which an unexpected token is reported; and the alternatives of every decision left to prediction are those of the function in the same order.", "quantifier": "all 53 rules, all token sequences, all 290 places of the functions that name a state, all decisions of prediction", "why_tests_cant": "A wrong number among the 4498 of the table, or in a SetState call, is noticed only for the sentences whose way goes through it, often only as a wrong choice between two alternatives.", "anchors": ["prutalgen/internal/parser/protobuf_parser.go:69-299 serializedATN", "prutalgen/internal/parser/protobuf_parser.go SetState", "prutalgen/internal/antlr/atn_deserializer.go Deserialize", "prutalgen/internal/antlr/error_strategy.go Sync", "prutalgen/internal/Protobuf.g4"]}
{"id": "C83", "title": "Files that LoadProto accepts become messages that survive the wire", "statement": "For .proto files whose bytes the loader reads, whose type names it resolves and whose numbers it verifies, and whose declarations keep the rules of protobuf that it does not check (numbers in range, no option twice, known values of packed and features), every message is generated as a struct whose descriptor the runtime accepts: it has exactly the declared fields, with their numbers, the encodings of their types and their repetition; and the type a name is resolved to is the declaration that the search of C52 finds. If no struct contains itself by value, the generated types have descriptors together, no call of Marshal, Size or Unmarshal on them panics, and what is marshalled (up to 1000 levels) is read back as the same value.", "quantifier": "all bytes of all files, all predictions of the parser, imports, directives, struct sizes, all values of all generated types", "why_tests_cant": "it joins the lexer, the parser, the listeners, the resolution of names, the generator and the runtime, for every set of files; a test takes one set through", "anchors": ["prutalgen/pkg/prutalgen/prutalgen.go:LoadProto", "prutalgen/pkg/prutalgen/proto.go:resolve,verify", "prutalgen/pkg/prutalgen/message.go:resolve,verify,getType", "prutalgen/pkg/prutalgen/type.go:resolve", "prutalgen/pkg/prutalgen/field.go:resolve", "prutalgen/pkg/prutalgen/code.go:MessageGen", "prutal.go:Marshal,Unmarshal"]}
{"id": "C84", "title": "The Go text that is written declares the generated types", "statement": "The text of a generated file, read by the lexical rules and the grammar of Go, is a file of the package asked for, with one import of each package that the declarations refer to and of no other, and with the declarations of its enums and messages and nothing else: the types, constants, maps and methods, with the fields of structs having the names, types and tags that the runtime is to find by reflection. No name, comment, number or tag in the .proto file changes where a declaration ends.", "quantifier": "every list of enums and nested messages with names, comments, numbers and options, every header, and every state of the writer before", "why_tests_cant": "the text is put together from names and comments of the .proto file; tests compare it for a few files, while a comment, a sign or a missing newline in an untested place can change how Go reads the rest", "anchors": ["prutalgen/pkg/prutalgen/code.go: ProtoGen, EnumGen, MessageGen, FieldGen, OneofGen", "prutalgen/pkg/prutalgen/codewriter.go: CodeWriter", "prutalgen/pkg/prutalgen/field.go: GoTypeName"]}
{"id": "C85", "title": "Comments of a .proto file reach the generated Go file from its bytes", "statement": "For every file that the parser accepts, the comments handed to the generator are determined by the text: the messages, enums, enum values, fields, services and methods of the file are asked for comments in the order of the file; each one's place is from the first to the last token of its definition in the text; it gets exactly the comments above it, up to an empty line, that are not behind another definition on its line, and the one behind it on its line; no comment is given twice; the file gets those above its first token unless a definition begins there. What is handed over is always well-formed Go comment text: line comments without a line feed, block comments that end where they end in the file.", "quantifier": "all byte sequences and all predictions of the parser with which the file is accepted", "why_tests_cant": "any arrangement of comments, white space and nested definitions, with any bytes in the comments, is possible; tests compare a few files", "anchors": ["prutalgen/pkg/prutalgen/prutalgen.go:parseInput", "prutalgen/pkg/prutalgen/comment.go:streamContext", "prutalgen/pkg/prutalgen/message.go", "prutalgen/pkg/prutalgen/enum.go", "prutalgen/pkg/prutalgen/field.go", "prutalgen/pkg/prutalgen/service.go", "prutalgen/internal/antlr/common_token_stream.go"]}
{"id": "C86", "title": "The Go file written for a .proto file declares its messages and enums", "statement": "For every set of .proto files that is accepted, from their bytes: the Go file written for each of them is a Go file, with a package clause, one import of each package that is referred to, and for each message, nested at any depth, and each enum of the file its declarations. Each message is declared under the camel case of its path; its fields have the types that their type names resolve to, under the names those types are declared with and in the package they are declared in; and the declared struct is one in which the runtime finds every declared field, with its number and encoding, and no other.", "quantifier": "all bytes of files, all imports between them, all comments and directives", "why_tests_cant": "names, nesting, imports and comments combine without bound; tests generate code for a few files and compile it", "anchors": ["prutalgen/pkg/prutalgen/prutalgen.go:LoadProto", "prutalgen/pkg/prutalgen/code.go:ProtoGen", "prutalgen/pkg/prutalgen/message.go:resolve", "prutalgen/pkg/prutalgen/enum.go:resolve", "prutalgen/pkg/prutalgen/type.go:resolve,GoName,GoImport"]}
{"id": "C87", "title": "The members of the oneofs of a struct are found where generated code lists them", "statement": "For every struct type with oneofs whose pointer type lists the wrapper types of their members, in a method XXX_OneofWrappers or in the field OneofWrappers of the message information that its method ProtoReflect leads to, each listed wrapper that implements the interface of a oneof becomes a field of the descriptor, so that Marshal writes it and Unmarshal sets it, and no other wrapper does; the search always ends.", "quantifier": "all struct types, all values that ProtoReflect returns, with any nesting, sharing and cycles of pointers", "why_tests_cant": "the values that reflection walks are graphs of any shape; tests have the message information of a few generated types", "anchors": ["internal/desc/utils.go:searchOneofWrappers,searchFieldOneofWrappers", "internal/desc/desc.go:parseStruct"]}
{"id": "C88", "title": "The services of a .proto file show the Go types of their methods", "statement": "For every file that LoadProto accepts, every method of every service has a Go name of its own in its service, and its request and response types are messages for which GoName, GoImport and IsExternalType give the name and the Go package that the generated code declares the message with.", "quantifier": "all accepted sets of .proto files, all services and methods", "why_tests_cant": "services, type names, packages and imports combine without bound", "anchors": ["prutalgen/pkg/prutalgen/service.go:Service.resolve, Method.resolve, Service.verify", "prutalgen/pkg/prutalgen/type.go:Type.resolve, GoName, GoImport, IsExternalType, IsMessage, IsEnum"]}
{"id": "C89", "title": "Every definition of a .proto file becomes one object, which has its comments and directives", "statement": "For every file that LoadProto loads, the messages, fields, enums, values, services and methods of the Proto correspond one to one to the definitions in the text: each has the name and number written there, stands in the message, enum or service it is written in, in the order of the text, and its HeadComment, InlineComment and Directives are those of its own definition.", "quantifier": "all files that load, all definitions and objects in them", "why_tests_cant": "nesting and order of definitions are unbounded; a test fixes one file, while a misplaced comment shows only for some nesting", "anchors": ["prutalgen/pkg/prutalgen/message.go:EnterMessageDef", "prutalgen/pkg/prutalgen/enum.go:EnterEnumDef", "prutalgen/pkg/prutalgen/enum.go:ExitEnumField", "prutalgen/pkg/prutalgen/field.go:newField", "prutalgen/pkg/prutalgen/service.go:EnterServiceDef", "prutalgen/pkg/prutalgen/comment.go"]}
