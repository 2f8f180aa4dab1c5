(** Model of internal/desc: struct and field descriptors, validation, coder
    selection and field lookup.  (Tag text parsing is in TagParse.v.) *)
From Verif Require Import Base Wire Coder MapTables Value.
Open Scope N_scope.

(** TagType, internal/desc/const.go:26-34.  [TagNone] is the zero TagType. *)
Inductive tagtype := TagNone | TagVarint | TagZigZag32 | TagZigZag64 | TagFixed32 | TagFixed64 | TagBytes | TagUnknown.

Definition tag_eqb (a b : tagtype) : bool :=
  match a, b with
  | TagNone, TagNone | TagVarint, TagVarint | TagZigZag32, TagZigZag32 | TagZigZag64, TagZigZag64
  | TagFixed32, TagFixed32 | TagFixed64, TagFixed64 | TagBytes, TagBytes | TagUnknown, TagUnknown => true
  | _, _ => false
  end.

(** wireTypes, internal/desc/desc.go:143-150 (index 0 holds the zero wire.Type) *)
Definition wireTypes (t : tagtype) : N :=
  match t with
  | TagVarint | TagZigZag32 | TagZigZag64 => WVarint
  | TagFixed32 => WFixed32
  | TagFixed64 => WFixed64
  | TagBytes => WBytes
  | TagNone | TagUnknown => 0
  end.

(** FieldDesc, internal/desc/desc.go:152-199: the independent part.  Everything
    finalizeField computes is a function of it, below. *)
Record fdesc := mkF {
  f_id : Z;                 (* ID int32 *)
  f_slot : nat;             (* Offset, as the index of the struct field *)
  f_tag : tagtype;          (* TagType *)
  f_rep : bool;             (* Repeated *)
  f_packed : bool;          (* Packed *)
  f_ktag : tagtype;         (* KeyType *)
  f_vtag : tagtype;         (* ValType *)
  f_T : gotype;             (* T *)
  f_oneof : option nat      (* OneofType: the wrapper type *)
}.

(** StructDesc, internal/desc/desc.go:84-100.  [sd_zero] is the zero struct of Empty;
    [sd_size] is reflect's Size. *)
Record sdesc := mkS {
  sd_fields : list fdesc;   (* Fields, sorted by ID *)
  sd_unknown : bool;        (* HasUnknownFields *)
  sd_size : N;
  sd_slots : list gotype;   (* Go types of the struct's fields *)
  sd_zero : val             (* what Empty points to *)
}.

Definition env := nat -> sdesc.

Definition IsMap (f : fdesc) : bool := match f_T f with TMap _ _ => true | _ => false end.
(** desc.go:224-225 *)
Definition IsList (f : fdesc) : bool := f_rep f && negb (IsMap f).

(** tag.go:71-75 *)
Definition WireTag (f : fdesc) : N :=
  if f_packed f then EncodeTag (f_id f) WBytes else EncodeTag (f_id f) (wireTypes (f_tag f)).
(** desc.go:242 *)
Definition WireTagSize (f : fdesc) : N := SizeVarint (WireTag f).

Definition IsPointer (t : gotype) : bool := match t with TPtr _ => true | _ => false end.
Definition IsSlice (t : gotype) : bool := match t with TSlice _ => true | _ => false end.
Definition SliceLike (t : gotype) : bool :=
  match t with TSlice _ | TBytes | TString => true | _ => false end.
(** Type.V (pointer, slice, map) *)
Definition elemT (t : gotype) : option gotype :=
  match t with TPtr e | TSlice e | TMap _ e => Some e | _ => None end.
Definition keyT (t : gotype) : option gotype := match t with TMap k _ => Some k | _ => None end.

(** reflect.Type.Size on amd64 *)
Definition tsize (E : env) (t : gotype) : N :=
  match t with
  | TScalar k => skind_size k
  | TString => 16
  | TBytes => 24
  | TStruct id => sd_size (E id)
  | TPtr _ => 8
  | TSlice _ => 24
  | TMap _ _ => 8
  | TIface _ => 16
  | TOther => 2
  end.

(** Zero value of a type. *)
Definition zero_of (E : env) (t : gotype) : val :=
  match t with
  | TScalar _ => VNum 0
  | TString => VStr []
  | TBytes => VBytes None
  | TStruct id => sd_zero (E id)
  | TPtr _ => VPtr None
  | TSlice _ => VSlice [] []
  | TMap _ _ => VMap None
  | TIface _ => VIface None
  | TOther => VNum 0
  end.

(** MallocAbiType == 0, internal/desc/type.go:127-133: these kinds are allocated from
    memory that is not cleared. *)
Definition noscan (t : gotype) : bool :=
  match t with
  | TPtr _ | TSlice _ | TBytes | TString | TMap _ _ | TStruct _ => false
  | _ => true
  end.

(** ** Coder selection, internal/desc/funcs.go *)

(** getCoderType, funcs.go:25-58 *)
Definition getCoderType (t : tagtype) (k : rkind) : coder :=
  match t with
  | TagVarint =>
      match k with
      | RScalar Int32 => CVarintI32
      | RScalar Uint32 => CVarintU32
      | RScalar Int64 | RScalar Uint64 => CVarint64
      | RScalar Bool => CBool
      | _ => CUnknown
      end
  | TagZigZag32 => CZigZag32
  | TagZigZag64 => CZigZag64
  | TagFixed32 => CFixed32
  | TagFixed64 => CFixed64
  | TagBytes =>
      match k with
      | RString => CString
      | RBytes => CBytes
      | RStruct => CStruct
      | _ => CUnknown
      end
  | TagNone | TagUnknown => CUnknown
  end.

(** getMapDecodeFunc / getAppendMapFunc / getSizeMapFunc take the kinds of the key and
    value types without dereferencing, funcs.go:93-98,119-123,135-139. *)
Definition mapKV (f : fdesc) : coder * coder :=
  match f_T f with
  | TMap k v => (getCoderType (f_ktag f) (kindOf k), getCoderType (f_vtag f) (kindOf v))
  | _ => (CUnknown, CUnknown)
  end.
Definition getMapDecodeFunc (f : fdesc) := GetMapDecoderFunc (fst (mapKV f)) (snd (mapKV f)).
Definition getAppendMapFunc (f : fdesc) := GetMapEncoderFunc (fst (mapKV f)) (snd (mapKV f)).
Definition getSizeMapFunc (f : fdesc) := GetMapSizeFunc (fst (mapKV f)) (snd (mapKV f)).

(** dereferenceElemKind, funcs.go:107-112.  Go's loop strips every pointer and slice,
    including []byte (a slice of uint8). *)
Fixpoint dereferenceElemKind (t : gotype) : rkind :=
  match t with
  | TPtr t' | TSlice t' => dereferenceElemKind t'
  | TBytes => ROther   (* uint8 *)
  | _ => kindOf t
  end.

(** coder used for f.AppendFunc, f.SizeFunc and f.AppendRepeated of non-map fields,
    desc.go:243-244, funcs.go:114-117,125-133 *)
Definition fieldCoder (f : fdesc) : coder := getCoderType (f_tag f) (RealKind (f_T f)).
(** coder of getPackedDecodeFunc, funcs.go:76-79 *)
Definition packedCoder (f : fdesc) : coder :=
  match elemT (f_T f) with
  | Some e => getCoderType (f_tag f) (dereferenceElemKind e)
  | None => CUnknown
  end.
(** coders of KeyAppendFunc/KeySizeFunc and ValAppendFunc/ValSizeFunc, desc.go:246-249 *)
Definition keyCoder (f : fdesc) : coder :=
  match f_T f with TMap k _ => getCoderType (f_ktag f) (RealKind k) | _ => CUnknown end.
Definition valCoder (f : fdesc) : coder :=
  match f_T f with TMap _ v => getCoderType (f_vtag f) (RealKind v) | _ => CUnknown end.

(** ** Validation *)

(** IsFieldKeyTypeMatchReflectKind, utils.go:27-49 *)
Definition IsFieldKeyTypeMatchReflectKind (t : tagtype) (k : rkind) : bool :=
  match t, k with
  | TagVarint, RScalar (Int32 | Uint32 | Int64 | Uint64 | Bool) => true
  | TagZigZag32, RScalar Int32 => true
  | TagZigZag64, RScalar Int64 => true
  | TagFixed32, RScalar (Int32 | Uint32 | Float32) => true
  | TagFixed64, RScalar (Int64 | Uint64 | Float64) => true
  | TagBytes, RString => true
  | _, _ => false
  end.

(** IsFieldTypeMatchReflectKind, utils.go:52-74 *)
Definition IsFieldTypeMatchReflectKind (t : tagtype) (k : rkind) : bool :=
  match t, k with
  | TagVarint, RScalar (Int32 | Uint32 | Int64 | Uint64 | Bool) => true
  | TagZigZag32, RScalar Int32 => true
  | TagZigZag64, RScalar Int64 => true
  | TagFixed32, RScalar (Int32 | Uint32 | Float32) => true
  | TagFixed64, RScalar (Int64 | Uint64 | Float64) => true
  | TagBytes, (RString | RMap | RStruct | RBytes) => true
  | _, _ => false
  end.

(** checkTypeMatch, desc.go:262-312; [true] = no error *)
Definition checkTypeMatch (f : fdesc) : bool :=
  let t := f_T f in
  (if f_packed f then
     f_rep f && IsSlice t &&
     match f_tag f with
     | TagVarint | TagZigZag32 | TagZigZag64 | TagFixed32 | TagFixed64 => true
     | _ => false
     end
   else true) &&
  (if f_rep f then
     (IsSlice t || IsMap f) &&
     match t with
     | TSlice el =>
         let el := match el with TPtr e => e | _ => el end in
         match el with TSlice _ | TMap _ _ => false | _ => true end
     | _ => true
     end
   else true) &&
  IsFieldTypeMatchReflectKind (f_tag f) (RealKind t) &&
  match t with
  | TMap k v =>
      f_rep f && IsFieldKeyTypeMatchReflectKind (f_ktag f) (RealKind k) &&
      IsFieldTypeMatchReflectKind (f_vtag f) (RealKind v)
  | _ => true
  end.

(** parseType rejects pointers to pointers, type.go:155-158 *)
Fixpoint type_ok (t : gotype) : bool :=
  match t with
  | TPtr (TPtr _) => false
  | TPtr t' | TSlice t' => type_ok t'
  | TMap k v => type_ok k && type_ok v
  | _ => true
  end.

(** ** parseStruct: sorting and lookup tables, desc.go:369-398 *)

(** sort.Slice(fields, ID <).  Equal IDs are rejected below, so stability is irrelevant. *)
Fixpoint insert_field (f : fdesc) (l : list fdesc) : list fdesc :=
  match l with
  | [] => [f]
  | g :: r => if (f_id g <? f_id f)%Z then g :: insert_field f r else f :: l
  end.
Fixpoint sort_fields (l : list fdesc) : list fdesc :=
  match l with [] => [] | f :: r => insert_field f (sort_fields r) end.

(** maxDirectFieldMapID, desc.go:82 *)
Definition maxDirectFieldMapID : Z := 1000.

(** maxn of desc.go:375-383: the largest ID among the leading fields up to 1000 *)
Fixpoint max_direct (maxn : Z) (l : list fdesc) : Z :=
  match l with
  | [] => maxn
  | f :: r => if (maxDirectFieldMapID <? f_id f)%Z then maxn else max_direct (f_id f) r
  end.

(** The fill loop desc.go:386-398.  [None]: error or index panic. *)
Fixpoint fill_tables (prev : option fdesc) (l : list fdesc)
    (m0 : list (option fdesc)) (m1 : list (Z * fdesc))
  : option (list (option fdesc) * list (Z * fdesc)) :=
  match l with
  | [] => Some (m0, m1)
  | f :: r =>
      let step m0 m1 :=
        match prev with
        | Some g => if (f_id f =? f_id g)%Z then None else fill_tables (Some f) r m0 m1
        | None => fill_tables (Some f) r m0 m1
        end in
      if (f_id f <=? maxDirectFieldMapID)%Z then
        if (0 <=? f_id f)%Z && (f_id f <? Z.of_nat (length m0))%Z
        then step (upd_nth (Z.to_nat (f_id f)) (Some f) m0) m1
        else None
      else step m0 ((f_id f, f) :: m1)
  end.

Definition build_tables (l : list fdesc) : option (list (option fdesc) * list (Z * fdesc)) :=
  let maxn := max_direct 0 l in
  if (maxn <? -1)%Z then None
  else fill_tables None l (repeat None (Z.to_nat (maxn + 1))) [].

Fixpoint lookup_id {A} (v : Z) (l : list (Z * A)) : option A :=
  match l with [] => None | (k, a) :: r => if (k =? v)%Z then Some a else lookup_id v r end.

(** StructDesc.GetField, desc.go:102-107.  Outer [None]: index panic. *)
Definition GetField_tables (m0 : list (option fdesc)) (m1 : list (Z * fdesc)) (v : Z)
  : option (option fdesc) :=
  if (v <? Z.of_nat (length m0))%Z then
    if (v <? 0)%Z then None else nth_error m0 (Z.to_nat v)
  else Some (lookup_id v m1).

Definition GetField (s : sdesc) (v : Z) : option (option fdesc) :=
  match build_tables (sd_fields s) with
  | Some (m0, m1) => GetField_tables m0 m1 v
  | None => None
  end.
