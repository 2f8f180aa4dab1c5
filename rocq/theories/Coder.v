(** Coder types and the vocabulary of the registration tables of internal/wire. *)
From Verif Require Import Base.

(** wire.CoderType, internal/wire/wire.go:73-88 *)
Inductive coder :=
| CVarintU32 | CVarintI32 | CVarint64 | CZigZag32 | CZigZag64
| CFixed32 | CFixed64 | CBytes | CString | CBool | CStruct | CUnknown.

Definition coder_eqb (a b : coder) : bool :=
  match a, b with
  | CVarintU32, CVarintU32 | CVarintI32, CVarintI32 | CVarint64, CVarint64
  | CZigZag32, CZigZag32 | CZigZag64, CZigZag64 | CFixed32, CFixed32
  | CFixed64, CFixed64 | CBytes, CBytes | CString, CString | CBool, CBool
  | CStruct, CStruct | CUnknown, CUnknown => true
  | _, _ => false
  end.

(** Names of the appendMapKey_* / appendMapValue_* helpers, internal/wire/encoder_map.go:123-277 *)
Inductive mapenc :=
| MVarintU32 | MVarintU64 | MZigZag32 | MZigZag64 | MFixed32 | MFixed64 | MBool | MBytes | MString.

(** Names of the decodeMap_* helpers, internal/wire/decoder_map.go:110-181 *)
Inductive mapdec := DVarint | DFixed32 | DFixed64 | DBool.

(** Conversions applied by the DecodeMap_K_V bodies before the map store:
    uint32(x), x, protowire.DecodeZigZag(x), int32(protowire.DecodeZigZag(x)). *)
Inductive mapconv := XU32 | XId | XZigZag64 | XZigZag32.

(** Names of the sz* helpers, internal/wire/size_map.go:37-50 *)
Inductive mapsz :=
| SzVarintU32 | SzVarintU64 | SzVarintI32 | SzZigZag32 | SzZigZag64
| SzFixed32 | SzFixed64 | SzBool | SzString | SzByteSlice.
