(** Registration tables of internal/wire, one row per [register]/[reg] call.
    Generated from the source text: every row carries the line of the call and the
    helpers used by the registered function's body.  The bodies are uniform:
    AppendMap_K_V = for each entry: tag; LenReserve; key; value; LenPack
    (encoder_map.go:278-1237); DecodeMap_K_V = key; value; ensureMapNotNil; store
    (decoder_map.go:183-918). *)
From Verif Require Import Base Coder.

(** mapEncoderFuncs, internal/wire/encoder_map.go:33-120 *)
Definition mapEncoderFuncs : list ((coder * coder) * (mapenc * mapenc)) := [
  ((CVarintU32, CVarintU32), (MVarintU32, MVarintU32)); (* 38 AppendMap_VarintU32_VarintU32 *)
  ((CVarintU32, CVarint64), (MVarintU32, MVarintU64)); (* 39 AppendMap_VarintU32_VarintU64 *)
  ((CVarintU32, CZigZag32), (MVarintU32, MZigZag32)); (* 40 AppendMap_VarintU32_ZigZag32 *)
  ((CVarintU32, CZigZag64), (MVarintU32, MZigZag64)); (* 41 AppendMap_VarintU32_ZigZag64 *)
  ((CVarintU32, CFixed32), (MVarintU32, MFixed32)); (* 42 AppendMap_VarintU32_Fixed32 *)
  ((CVarintU32, CFixed64), (MVarintU32, MFixed64)); (* 43 AppendMap_VarintU32_Fixed64 *)
  ((CVarintU32, CBool), (MVarintU32, MBool)); (* 44 AppendMap_VarintU32_Bool *)
  ((CVarintU32, CBytes), (MVarintU32, MBytes)); (* 45 AppendMap_VarintU32_Bytes *)
  ((CVarintU32, CString), (MVarintU32, MString)); (* 46 AppendMap_VarintU32_String *)
  ((CVarint64, CVarintU32), (MVarintU64, MVarintU32)); (* 52 AppendMap_VarintU64_VarintU32 *)
  ((CVarint64, CVarint64), (MVarintU64, MVarintU64)); (* 53 AppendMap_VarintU64_VarintU64 *)
  ((CVarint64, CZigZag32), (MVarintU64, MZigZag32)); (* 54 AppendMap_VarintU64_ZigZag32 *)
  ((CVarint64, CZigZag64), (MVarintU64, MZigZag64)); (* 55 AppendMap_VarintU64_ZigZag64 *)
  ((CVarint64, CFixed32), (MVarintU64, MFixed32)); (* 56 AppendMap_VarintU64_Fixed32 *)
  ((CVarint64, CFixed64), (MVarintU64, MFixed64)); (* 57 AppendMap_VarintU64_Fixed64 *)
  ((CVarint64, CBool), (MVarintU64, MBool)); (* 58 AppendMap_VarintU64_Bool *)
  ((CVarint64, CBytes), (MVarintU64, MBytes)); (* 59 AppendMap_VarintU64_Bytes *)
  ((CVarint64, CString), (MVarintU64, MString)); (* 60 AppendMap_VarintU64_String *)
  ((CZigZag32, CVarintU32), (MZigZag32, MVarintU32)); (* 62 AppendMap_ZigZag32_VarintU32 *)
  ((CZigZag32, CVarint64), (MZigZag32, MVarintU64)); (* 63 AppendMap_ZigZag32_VarintU64 *)
  ((CZigZag32, CZigZag32), (MZigZag32, MZigZag32)); (* 64 AppendMap_ZigZag32_ZigZag32 *)
  ((CZigZag32, CZigZag64), (MZigZag32, MZigZag64)); (* 65 AppendMap_ZigZag32_ZigZag64 *)
  ((CZigZag32, CFixed32), (MZigZag32, MFixed32)); (* 66 AppendMap_ZigZag32_Fixed32 *)
  ((CZigZag32, CFixed64), (MZigZag32, MFixed64)); (* 67 AppendMap_ZigZag32_Fixed64 *)
  ((CZigZag32, CBool), (MZigZag32, MBool)); (* 68 AppendMap_ZigZag32_Bool *)
  ((CZigZag32, CBytes), (MZigZag32, MBytes)); (* 69 AppendMap_ZigZag32_Bytes *)
  ((CZigZag32, CString), (MZigZag32, MString)); (* 70 AppendMap_ZigZag32_String *)
  ((CZigZag64, CVarintU32), (MZigZag64, MVarintU32)); (* 72 AppendMap_ZigZag64_VarintU32 *)
  ((CZigZag64, CVarint64), (MZigZag64, MVarintU64)); (* 73 AppendMap_ZigZag64_VarintU64 *)
  ((CZigZag64, CZigZag32), (MZigZag64, MZigZag32)); (* 74 AppendMap_ZigZag64_ZigZag32 *)
  ((CZigZag64, CZigZag64), (MZigZag64, MZigZag64)); (* 75 AppendMap_ZigZag64_ZigZag64 *)
  ((CZigZag64, CFixed32), (MZigZag64, MFixed32)); (* 76 AppendMap_ZigZag64_Fixed32 *)
  ((CZigZag64, CFixed64), (MZigZag64, MFixed64)); (* 77 AppendMap_ZigZag64_Fixed64 *)
  ((CZigZag64, CBool), (MZigZag64, MBool)); (* 78 AppendMap_ZigZag64_Bool *)
  ((CZigZag64, CBytes), (MZigZag64, MBytes)); (* 79 AppendMap_ZigZag64_Bytes *)
  ((CZigZag64, CString), (MZigZag64, MString)); (* 80 AppendMap_ZigZag64_String *)
  ((CFixed32, CVarintU32), (MFixed32, MVarintU32)); (* 82 AppendMap_Fixed32_VarintU32 *)
  ((CFixed32, CVarint64), (MFixed32, MVarintU64)); (* 83 AppendMap_Fixed32_VarintU64 *)
  ((CFixed32, CZigZag32), (MFixed32, MZigZag32)); (* 84 AppendMap_Fixed32_ZigZag32 *)
  ((CFixed32, CZigZag64), (MFixed32, MZigZag64)); (* 85 AppendMap_Fixed32_ZigZag64 *)
  ((CFixed32, CFixed32), (MFixed32, MFixed32)); (* 86 AppendMap_Fixed32_Fixed32 *)
  ((CFixed32, CFixed64), (MFixed32, MFixed64)); (* 87 AppendMap_Fixed32_Fixed64 *)
  ((CFixed32, CBool), (MFixed32, MBool)); (* 88 AppendMap_Fixed32_Bool *)
  ((CFixed32, CBytes), (MFixed32, MBytes)); (* 89 AppendMap_Fixed32_Bytes *)
  ((CFixed32, CString), (MFixed32, MString)); (* 90 AppendMap_Fixed32_String *)
  ((CFixed64, CVarintU32), (MFixed64, MVarintU32)); (* 92 AppendMap_Fixed64_VarintU32 *)
  ((CFixed64, CVarint64), (MFixed64, MVarintU64)); (* 93 AppendMap_Fixed64_VarintU64 *)
  ((CFixed64, CZigZag32), (MFixed64, MZigZag32)); (* 94 AppendMap_Fixed64_ZigZag32 *)
  ((CFixed64, CZigZag64), (MFixed64, MZigZag64)); (* 95 AppendMap_Fixed64_ZigZag64 *)
  ((CFixed64, CFixed32), (MFixed64, MFixed32)); (* 96 AppendMap_Fixed64_Fixed32 *)
  ((CFixed64, CFixed64), (MFixed64, MFixed64)); (* 97 AppendMap_Fixed64_Fixed64 *)
  ((CFixed64, CBool), (MFixed64, MBool)); (* 98 AppendMap_Fixed64_Bool *)
  ((CFixed64, CBytes), (MFixed64, MBytes)); (* 99 AppendMap_Fixed64_Bytes *)
  ((CFixed64, CString), (MFixed64, MString)); (* 100 AppendMap_Fixed64_String *)
  ((CBool, CVarintU32), (MBool, MVarintU32)); (* 102 AppendMap_Bool_VarintU32 *)
  ((CBool, CVarint64), (MBool, MVarintU64)); (* 103 AppendMap_Bool_VarintU64 *)
  ((CBool, CZigZag32), (MBool, MZigZag32)); (* 104 AppendMap_Bool_ZigZag32 *)
  ((CBool, CZigZag64), (MBool, MZigZag64)); (* 105 AppendMap_Bool_ZigZag64 *)
  ((CBool, CFixed32), (MBool, MFixed32)); (* 106 AppendMap_Bool_Fixed32 *)
  ((CBool, CFixed64), (MBool, MFixed64)); (* 107 AppendMap_Bool_Fixed64 *)
  ((CBool, CBool), (MBool, MBool)); (* 108 AppendMap_Bool_Bool *)
  ((CBool, CBytes), (MBool, MBytes)); (* 109 AppendMap_Bool_Bytes *)
  ((CBool, CString), (MBool, MString)); (* 110 AppendMap_Bool_String *)
  ((CString, CVarintU32), (MString, MVarintU32)); (* 112 AppendMap_String_VarintU32 *)
  ((CString, CVarint64), (MString, MVarintU64)); (* 113 AppendMap_String_VarintU64 *)
  ((CString, CZigZag32), (MString, MZigZag32)); (* 114 AppendMap_String_ZigZag32 *)
  ((CString, CZigZag64), (MString, MZigZag64)); (* 115 AppendMap_String_ZigZag64 *)
  ((CString, CFixed32), (MString, MFixed32)); (* 116 AppendMap_String_Fixed32 *)
  ((CString, CFixed64), (MString, MFixed64)); (* 117 AppendMap_String_Fixed64 *)
  ((CString, CBool), (MString, MBool)); (* 118 AppendMap_String_Bool *)
  ((CString, CBytes), (MString, MBytes)); (* 119 AppendMap_String_Bytes *)
  ((CString, CString), (MString, MString))  (* 120 AppendMap_String_String *)
].

(** mapDecoderFuncs, internal/wire/decoder_map.go:34-108 *)
Definition mapDecoderFuncs : list ((coder * coder) * ((mapdec * mapconv) * (mapdec * mapconv))) := [
  ((CVarintU32, CVarintU32), ((DVarint, XU32), (DVarint, XU32))); (* 38 DecodeMap_VarintU32_VarintU32 map[uint32]uint32 *)
  ((CVarintU32, CVarint64), ((DVarint, XU32), (DVarint, XId))); (* 39 DecodeMap_VarintU32_VarintU64 map[uint32]uint64 *)
  ((CVarintU32, CZigZag32), ((DVarint, XU32), (DVarint, XZigZag32))); (* 40 DecodeMap_VarintU32_ZigZag32 map[uint32]int32 *)
  ((CVarintU32, CZigZag64), ((DVarint, XU32), (DVarint, XZigZag64))); (* 41 DecodeMap_VarintU32_ZigZag64 map[uint32]int64 *)
  ((CVarintU32, CFixed32), ((DVarint, XU32), (DFixed32, XId))); (* 42 DecodeMap_VarintU32_Fixed32 map[uint32]uint32 *)
  ((CVarintU32, CFixed64), ((DVarint, XU32), (DFixed64, XId))); (* 43 DecodeMap_VarintU32_Fixed64 map[uint32]uint64 *)
  ((CVarintU32, CBool), ((DVarint, XU32), (DBool, XId))); (* 44 DecodeMap_VarintU32_Bool map[uint32]bool *)
  ((CVarintI32, CVarintI32), ((DVarint, XU32), (DVarint, XU32))); (* 47 DecodeMap_VarintU32_VarintU32 map[uint32]uint32 *)
  ((CVarintI32, CVarintU32), ((DVarint, XU32), (DVarint, XU32))); (* 48 DecodeMap_VarintU32_VarintU32 map[uint32]uint32 *)
  ((CVarintI32, CVarint64), ((DVarint, XU32), (DVarint, XId))); (* 49 DecodeMap_VarintU32_VarintU64 map[uint32]uint64 *)
  ((CVarintI32, CZigZag32), ((DVarint, XU32), (DVarint, XZigZag32))); (* 50 DecodeMap_VarintU32_ZigZag32 map[uint32]int32 *)
  ((CVarintI32, CZigZag64), ((DVarint, XU32), (DVarint, XZigZag64))); (* 51 DecodeMap_VarintU32_ZigZag64 map[uint32]int64 *)
  ((CVarintI32, CFixed32), ((DVarint, XU32), (DFixed32, XId))); (* 52 DecodeMap_VarintU32_Fixed32 map[uint32]uint32 *)
  ((CVarintI32, CFixed64), ((DVarint, XU32), (DFixed64, XId))); (* 53 DecodeMap_VarintU32_Fixed64 map[uint32]uint64 *)
  ((CVarintI32, CBool), ((DVarint, XU32), (DBool, XId))); (* 54 DecodeMap_VarintU32_Bool map[uint32]bool *)
  ((CVarint64, CVarintI32), ((DVarint, XId), (DVarint, XU32))); (* 56 DecodeMap_VarintU64_VarintU32 map[uint64]uint32 *)
  ((CVarint64, CVarintU32), ((DVarint, XId), (DVarint, XU32))); (* 57 DecodeMap_VarintU64_VarintU32 map[uint64]uint32 *)
  ((CVarint64, CVarint64), ((DVarint, XId), (DVarint, XId))); (* 58 DecodeMap_VarintU64_VarintU64 map[uint64]uint64 *)
  ((CVarint64, CZigZag32), ((DVarint, XId), (DVarint, XZigZag32))); (* 59 DecodeMap_VarintU64_ZigZag32 map[uint64]int32 *)
  ((CVarint64, CZigZag64), ((DVarint, XId), (DVarint, XZigZag64))); (* 60 DecodeMap_VarintU64_ZigZag64 map[uint64]int64 *)
  ((CVarint64, CFixed32), ((DVarint, XId), (DFixed32, XId))); (* 61 DecodeMap_VarintU64_Fixed32 map[uint64]uint32 *)
  ((CVarint64, CFixed64), ((DVarint, XId), (DFixed64, XId))); (* 62 DecodeMap_VarintU64_Fixed64 map[uint64]uint64 *)
  ((CVarint64, CBool), ((DVarint, XId), (DBool, XId))); (* 63 DecodeMap_VarintU64_Bool map[uint64]bool *)
  ((CZigZag32, CVarintI32), ((DVarint, XZigZag32), (DVarint, XU32))); (* 65 DecodeMap_ZigZag32_VarintU32 map[int32]uint32 *)
  ((CZigZag32, CVarintU32), ((DVarint, XZigZag32), (DVarint, XU32))); (* 66 DecodeMap_ZigZag32_VarintU32 map[int32]uint32 *)
  ((CZigZag32, CVarint64), ((DVarint, XZigZag32), (DVarint, XId))); (* 67 DecodeMap_ZigZag32_VarintU64 map[int32]uint64 *)
  ((CZigZag32, CZigZag32), ((DVarint, XZigZag32), (DVarint, XZigZag32))); (* 68 DecodeMap_ZigZag32_ZigZag32 map[int32]int32 *)
  ((CZigZag32, CZigZag64), ((DVarint, XZigZag32), (DVarint, XZigZag64))); (* 69 DecodeMap_ZigZag32_ZigZag64 map[int32]int64 *)
  ((CZigZag32, CFixed32), ((DVarint, XZigZag32), (DFixed32, XId))); (* 70 DecodeMap_ZigZag32_Fixed32 map[int32]uint32 *)
  ((CZigZag32, CFixed64), ((DVarint, XZigZag32), (DFixed64, XId))); (* 71 DecodeMap_ZigZag32_Fixed64 map[int32]uint64 *)
  ((CZigZag32, CBool), ((DVarint, XZigZag32), (DBool, XId))); (* 72 DecodeMap_ZigZag32_Bool map[int32]bool *)
  ((CZigZag64, CVarintI32), ((DVarint, XZigZag64), (DVarint, XU32))); (* 74 DecodeMap_ZigZag64_VarintU32 map[int64]uint32 *)
  ((CZigZag64, CVarintU32), ((DVarint, XZigZag64), (DVarint, XU32))); (* 75 DecodeMap_ZigZag64_VarintU32 map[int64]uint32 *)
  ((CZigZag64, CVarint64), ((DVarint, XZigZag64), (DVarint, XId))); (* 76 DecodeMap_ZigZag64_VarintU64 map[int64]uint64 *)
  ((CZigZag64, CZigZag32), ((DVarint, XZigZag64), (DVarint, XZigZag32))); (* 77 DecodeMap_ZigZag64_ZigZag32 map[int64]int32 *)
  ((CZigZag64, CZigZag64), ((DVarint, XZigZag64), (DVarint, XZigZag64))); (* 78 DecodeMap_ZigZag64_ZigZag64 map[int64]int64 *)
  ((CZigZag64, CFixed32), ((DVarint, XZigZag64), (DFixed32, XId))); (* 79 DecodeMap_ZigZag64_Fixed32 map[int64]uint32 *)
  ((CZigZag64, CFixed64), ((DVarint, XZigZag64), (DFixed64, XId))); (* 80 DecodeMap_ZigZag64_Fixed64 map[int64]uint64 *)
  ((CZigZag64, CBool), ((DVarint, XZigZag64), (DBool, XId))); (* 81 DecodeMap_ZigZag64_Bool map[int64]bool *)
  ((CFixed32, CVarintI32), ((DFixed32, XId), (DVarint, XU32))); (* 83 DecodeMap_Fixed32_VarintU32 map[uint32]uint32 *)
  ((CFixed32, CVarintU32), ((DFixed32, XId), (DVarint, XU32))); (* 84 DecodeMap_Fixed32_VarintU32 map[uint32]uint32 *)
  ((CFixed32, CVarint64), ((DFixed32, XId), (DVarint, XId))); (* 85 DecodeMap_Fixed32_VarintU64 map[uint32]uint64 *)
  ((CFixed32, CZigZag32), ((DFixed32, XId), (DVarint, XZigZag32))); (* 86 DecodeMap_Fixed32_ZigZag32 map[uint32]int32 *)
  ((CFixed32, CZigZag64), ((DFixed32, XId), (DVarint, XZigZag64))); (* 87 DecodeMap_Fixed32_ZigZag64 map[uint32]int64 *)
  ((CFixed32, CFixed32), ((DFixed32, XId), (DFixed32, XId))); (* 88 DecodeMap_Fixed32_Fixed32 map[uint32]uint32 *)
  ((CFixed32, CFixed64), ((DFixed32, XId), (DFixed64, XId))); (* 89 DecodeMap_Fixed32_Fixed64 map[uint32]uint64 *)
  ((CFixed32, CBool), ((DFixed32, XId), (DBool, XId))); (* 90 DecodeMap_Fixed32_Bool map[uint32]bool *)
  ((CFixed64, CVarintI32), ((DFixed64, XId), (DVarint, XU32))); (* 92 DecodeMap_Fixed64_VarintU32 map[uint64]uint32 *)
  ((CFixed64, CVarintU32), ((DFixed64, XId), (DVarint, XU32))); (* 93 DecodeMap_Fixed64_VarintU32 map[uint64]uint32 *)
  ((CFixed64, CVarint64), ((DFixed64, XId), (DVarint, XId))); (* 94 DecodeMap_Fixed64_VarintU64 map[uint64]uint64 *)
  ((CFixed64, CZigZag32), ((DFixed64, XId), (DVarint, XZigZag32))); (* 95 DecodeMap_Fixed64_ZigZag32 map[uint64]int32 *)
  ((CFixed64, CZigZag64), ((DFixed64, XId), (DVarint, XZigZag64))); (* 96 DecodeMap_Fixed64_ZigZag64 map[uint64]int64 *)
  ((CFixed64, CFixed32), ((DFixed64, XId), (DFixed32, XId))); (* 97 DecodeMap_Fixed64_Fixed32 map[uint64]uint32 *)
  ((CFixed64, CFixed64), ((DFixed64, XId), (DFixed64, XId))); (* 98 DecodeMap_Fixed64_Fixed64 map[uint64]uint64 *)
  ((CFixed64, CBool), ((DFixed64, XId), (DBool, XId))); (* 99 DecodeMap_Fixed64_Bool map[uint64]bool *)
  ((CBool, CVarintU32), ((DBool, XId), (DVarint, XU32))); (* 101 DecodeMap_Bool_VarintU32 map[bool]uint32 *)
  ((CBool, CVarint64), ((DBool, XId), (DVarint, XId))); (* 102 DecodeMap_Bool_VarintU64 map[bool]uint64 *)
  ((CBool, CZigZag32), ((DBool, XId), (DVarint, XZigZag32))); (* 103 DecodeMap_Bool_ZigZag32 map[bool]int32 *)
  ((CBool, CZigZag64), ((DBool, XId), (DVarint, XZigZag64))); (* 104 DecodeMap_Bool_ZigZag64 map[bool]int64 *)
  ((CBool, CFixed32), ((DBool, XId), (DFixed32, XId))); (* 105 DecodeMap_Bool_Fixed32 map[bool]uint32 *)
  ((CBool, CFixed64), ((DBool, XId), (DFixed64, XId))); (* 106 DecodeMap_Bool_Fixed64 map[bool]uint64 *)
  ((CBool, CBool), ((DBool, XId), (DBool, XId)))  (* 107 DecodeMap_Bool_Bool map[bool]bool *)
].

(** mapSizeFuncs, internal/wire/size_map.go:66-178 *)
Definition mapSizeFuncs : list ((coder * coder) * (mapsz * mapsz)) := [
  ((CVarintU32, CVarintU32), (SzVarintU32, SzVarintU32)); (* 72 *)
  ((CVarintU32, CVarintI32), (SzVarintU32, SzVarintI32)); (* 73 *)
  ((CVarintU32, CVarint64), (SzVarintU32, SzVarintU64)); (* 74 *)
  ((CVarintU32, CZigZag32), (SzVarintU32, SzZigZag32)); (* 75 *)
  ((CVarintU32, CZigZag64), (SzVarintU32, SzZigZag64)); (* 76 *)
  ((CVarintU32, CFixed32), (SzVarintU32, SzFixed32)); (* 77 *)
  ((CVarintU32, CFixed64), (SzVarintU32, SzFixed64)); (* 78 *)
  ((CVarintU32, CBool), (SzVarintU32, SzBool)); (* 79 *)
  ((CVarintU32, CBytes), (SzVarintU32, SzByteSlice)); (* 80 *)
  ((CVarintU32, CString), (SzVarintU32, SzString)); (* 81 *)
  ((CVarintI32, CVarintU32), (SzVarintI32, SzVarintU32)); (* 84 *)
  ((CVarintI32, CVarintI32), (SzVarintI32, SzVarintI32)); (* 85 *)
  ((CVarintI32, CVarint64), (SzVarintI32, SzVarintU64)); (* 86 *)
  ((CVarintI32, CZigZag32), (SzVarintI32, SzZigZag32)); (* 87 *)
  ((CVarintI32, CZigZag64), (SzVarintI32, SzZigZag64)); (* 88 *)
  ((CVarintI32, CFixed32), (SzVarintI32, SzFixed32)); (* 89 *)
  ((CVarintI32, CFixed64), (SzVarintI32, SzFixed64)); (* 90 *)
  ((CVarintI32, CBool), (SzVarintI32, SzBool)); (* 91 *)
  ((CVarintI32, CBytes), (SzVarintI32, SzByteSlice)); (* 92 *)
  ((CVarintI32, CString), (SzVarintI32, SzString)); (* 93 *)
  ((CVarint64, CVarintU32), (SzVarintU64, SzVarintU32)); (* 96 *)
  ((CVarint64, CVarintI32), (SzVarintU64, SzVarintI32)); (* 97 *)
  ((CVarint64, CVarint64), (SzVarintU64, SzVarintU64)); (* 98 *)
  ((CVarint64, CZigZag32), (SzVarintU64, SzZigZag32)); (* 99 *)
  ((CVarint64, CZigZag64), (SzVarintU64, SzZigZag64)); (* 100 *)
  ((CVarint64, CFixed32), (SzVarintU64, SzFixed32)); (* 101 *)
  ((CVarint64, CFixed64), (SzVarintU64, SzFixed64)); (* 102 *)
  ((CVarint64, CBool), (SzVarintU64, SzBool)); (* 103 *)
  ((CVarint64, CBytes), (SzVarintU64, SzByteSlice)); (* 104 *)
  ((CVarint64, CString), (SzVarintU64, SzString)); (* 105 *)
  ((CZigZag32, CVarintU32), (SzZigZag32, SzVarintU32)); (* 108 *)
  ((CZigZag32, CVarintI32), (SzZigZag32, SzVarintI32)); (* 109 *)
  ((CZigZag32, CVarint64), (SzZigZag32, SzVarintU64)); (* 110 *)
  ((CZigZag32, CZigZag32), (SzZigZag32, SzZigZag32)); (* 111 *)
  ((CZigZag32, CZigZag64), (SzZigZag32, SzZigZag64)); (* 112 *)
  ((CZigZag32, CFixed32), (SzZigZag32, SzFixed32)); (* 113 *)
  ((CZigZag32, CFixed64), (SzZigZag32, SzFixed64)); (* 114 *)
  ((CZigZag32, CBool), (SzZigZag32, SzBool)); (* 115 *)
  ((CZigZag32, CBytes), (SzZigZag32, SzByteSlice)); (* 116 *)
  ((CZigZag32, CString), (SzZigZag32, SzString)); (* 117 *)
  ((CZigZag64, CVarintU32), (SzZigZag64, SzVarintU32)); (* 120 *)
  ((CZigZag64, CVarintI32), (SzZigZag64, SzVarintI32)); (* 121 *)
  ((CZigZag64, CVarint64), (SzZigZag64, SzVarintU64)); (* 122 *)
  ((CZigZag64, CZigZag32), (SzZigZag64, SzZigZag32)); (* 123 *)
  ((CZigZag64, CZigZag64), (SzZigZag64, SzZigZag64)); (* 124 *)
  ((CZigZag64, CFixed32), (SzZigZag64, SzFixed32)); (* 125 *)
  ((CZigZag64, CFixed64), (SzZigZag64, SzFixed64)); (* 126 *)
  ((CZigZag64, CBool), (SzZigZag64, SzBool)); (* 127 *)
  ((CZigZag64, CBytes), (SzZigZag64, SzByteSlice)); (* 128 *)
  ((CZigZag64, CString), (SzZigZag64, SzString)); (* 129 *)
  ((CFixed32, CVarintU32), (SzFixed32, SzVarintU32)); (* 132 *)
  ((CFixed32, CVarintI32), (SzFixed32, SzVarintI32)); (* 133 *)
  ((CFixed32, CVarint64), (SzFixed32, SzVarintU64)); (* 134 *)
  ((CFixed32, CZigZag32), (SzFixed32, SzZigZag32)); (* 135 *)
  ((CFixed32, CZigZag64), (SzFixed32, SzZigZag64)); (* 136 *)
  ((CFixed32, CFixed32), (SzFixed32, SzFixed32)); (* 137 *)
  ((CFixed32, CFixed64), (SzFixed32, SzFixed64)); (* 138 *)
  ((CFixed32, CBool), (SzFixed32, SzBool)); (* 139 *)
  ((CFixed32, CBytes), (SzFixed32, SzByteSlice)); (* 140 *)
  ((CFixed32, CString), (SzFixed32, SzString)); (* 141 *)
  ((CFixed64, CVarintU32), (SzFixed64, SzVarintU32)); (* 144 *)
  ((CFixed64, CVarintI32), (SzFixed64, SzVarintI32)); (* 145 *)
  ((CFixed64, CVarint64), (SzFixed64, SzVarintU64)); (* 146 *)
  ((CFixed64, CZigZag32), (SzFixed64, SzZigZag32)); (* 147 *)
  ((CFixed64, CZigZag64), (SzFixed64, SzZigZag64)); (* 148 *)
  ((CFixed64, CFixed32), (SzFixed64, SzFixed32)); (* 149 *)
  ((CFixed64, CFixed64), (SzFixed64, SzFixed64)); (* 150 *)
  ((CFixed64, CBool), (SzFixed64, SzBool)); (* 151 *)
  ((CFixed64, CBytes), (SzFixed64, SzByteSlice)); (* 152 *)
  ((CFixed64, CString), (SzFixed64, SzString)); (* 153 *)
  ((CBool, CVarintU32), (SzBool, SzVarintU32)); (* 156 *)
  ((CBool, CVarintI32), (SzBool, SzVarintI32)); (* 157 *)
  ((CBool, CVarint64), (SzBool, SzVarintU64)); (* 158 *)
  ((CBool, CZigZag32), (SzBool, SzZigZag32)); (* 159 *)
  ((CBool, CZigZag64), (SzBool, SzZigZag64)); (* 160 *)
  ((CBool, CFixed32), (SzBool, SzFixed32)); (* 161 *)
  ((CBool, CFixed64), (SzBool, SzFixed64)); (* 162 *)
  ((CBool, CBool), (SzBool, SzBool)); (* 163 *)
  ((CBool, CBytes), (SzBool, SzByteSlice)); (* 164 *)
  ((CBool, CString), (SzBool, SzString)); (* 165 *)
  ((CString, CVarintU32), (SzString, SzVarintU32)); (* 168 *)
  ((CString, CVarintI32), (SzString, SzVarintI32)); (* 169 *)
  ((CString, CVarint64), (SzString, SzVarintU64)); (* 170 *)
  ((CString, CZigZag32), (SzString, SzZigZag32)); (* 171 *)
  ((CString, CZigZag64), (SzString, SzZigZag64)); (* 172 *)
  ((CString, CFixed32), (SzString, SzFixed32)); (* 173 *)
  ((CString, CFixed64), (SzString, SzFixed64)); (* 174 *)
  ((CString, CBool), (SzString, SzBool)); (* 175 *)
  ((CString, CBytes), (SzString, SzByteSlice)); (* 176 *)
  ((CString, CString), (SzString, SzString))  (* 177 *)
].

(** Lookup in a Go map keyed by {K, V CoderType} (decoder.go:36-38, encoder_map.go:29-31,
    size_map.go:31-33); [None] is a nil function. *)
Fixpoint lookup2 {A} (k v : coder) (l : list ((coder * coder) * A)) : option A :=
  match l with
  | [] => None
  | ((k', v'), a) :: r =>
      if coder_eqb k k' && coder_eqb v v' then Some a else lookup2 k v r
  end.
Definition GetMapEncoderFunc (k v : coder) := lookup2 k v mapEncoderFuncs.
Definition GetMapDecoderFunc (k v : coder) := lookup2 k v mapDecoderFuncs.
Definition GetMapSizeFunc (k v : coder) := lookup2 k v mapSizeFuncs.
