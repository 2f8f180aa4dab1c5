(** Model of prutalgen/pkg/prutalgen: the Go declaration generated for a message of a
    .proto file (field.go, type.go, consts.go and MessageGen, FieldStructTag, FieldGen and
    OneofGen of code.go).

    Simplifications: the Go type a generated text denotes stands for the text; comments and
    the names of Go fields and types, which the runtime does not look at, are left out here
    (the names are in GenNames.v). *)
From Coq Require Import Strings.String Init.Byte.
From Verif Require Import Base Wire Coder MapTables Value Desc GoStr TagParse Parse.
Import StringSyntax.
Open Scope N_scope.

(** The keys of scalar2GoTypes, consts.go:56-72 *)
Inductive pscalar :=
| PDouble | PFloat | PInt32 | PInt64 | PUint32 | PUint64 | PSint32 | PSint64
| PFixed32 | PFixed64 | PSfixed32 | PSfixed64 | PBool | PString | PBytes.

(** Type, type.go:27-40, after resolve: [typ] nil, an *Enum or a *Message. *)
Inductive ptype := PScalar (s : pscalar) | PEnum | PMsg (id : nat).

(** scalar2GoTypes, consts.go:56-72 *)
Definition scalar2GoTypes (s : pscalar) : gotype :=
  match s with
  | PDouble => TScalar Float64
  | PFloat => TScalar Float32
  | PInt32 => TScalar Int32
  | PInt64 => TScalar Int64
  | PUint32 => TScalar Uint32
  | PUint64 => TScalar Uint64
  | PSint32 => TScalar Int32
  | PSint64 => TScalar Int64
  | PFixed32 => TScalar Uint32
  | PFixed64 => TScalar Uint64
  | PSfixed32 => TScalar Int32
  | PSfixed64 => TScalar Int64
  | PBool => TScalar Bool
  | PString => TString
  | PBytes => TBytes
  end.

(** scalar2encodingType, consts.go:74-90 *)
Definition scalar2encodingType (s : pscalar) : bytes :=
  match s with
  | PDouble => bs "fixed64"
  | PFloat => bs "fixed32"
  | PInt32 => bs "varint"
  | PInt64 => bs "varint"
  | PUint32 => bs "varint"
  | PUint64 => bs "varint"
  | PSint32 => bs "zigzag32"
  | PSint64 => bs "zigzag64"
  | PFixed32 => bs "fixed32"
  | PFixed64 => bs "fixed64"
  | PSfixed32 => bs "fixed32"
  | PSfixed64 => bs "fixed64"
  | PBool => bs "varint"
  | PString => bs "bytes"
  | PBytes => bs "bytes"
  end.

(** scalarPackedTypes, consts.go:93-107 *)
Definition scalarPackedTypes (s : pscalar) : bool :=
  match s with PString | PBytes => false | _ => true end.

(** Options.Get, option.go:46-55: the last value *)
Definition options := list (bytes * bytes).
Fixpoint opt_get (oo : options) (name : bytes) : option bytes :=
  match oo with
  | [] => None
  | (n, v) :: r =>
      match opt_get r name with
      | Some w => Some w
      | None => if str_eqb n name then Some v else None
      end
  end.
(** Options.Is, option.go:57-60 *)
Definition opt_is (oo : options) (name value : bytes) : bool :=
  match opt_get oo name with Some s => str_eqb s value | None => false end.

(** Directives.Has, directive.go:36-43 *)
Definition dir_has (dd : list bytes) (d : bytes) : bool := existsb (fun s => str_eqb s d) dd.
(** Directives.IsSet, directive.go:57-68; [None]: not found *)
Fixpoint dir_is_set (dd : list bytes) (d : bytes) : option bool :=
  match dd with
  | [] => None
  | s :: r =>
      if str_eqb s d then Some true
      else if str_eqb s (bs "no_" ++ d) then Some false
      else dir_is_set r d
  end.

(** istrue and isfalse, utils.go:77-78 *)
Definition istrue (v : bytes) : bool := str_eqb v (bs "true").
Definition isfalse (v : bytes) : bool := str_eqb v (bs "false").

(** Proto.Edition, consts.go:19-23 *)
Inductive edition := Proto2 | Proto3 | Edition2023.

(** What a field sees of its file and message. *)
Record pctx := mkC {
  c_edition : edition;
  c_options : options;           (* Proto.Options *)
  c_dirs : list bytes;           (* Proto.Directives *)
  c_msgoptions : options;        (* Message.Options *)
  c_msgdirs : list bytes         (* Message.Directives *)
}.

(** Field, field.go:31-58 *)
Record pfd := mkPF {
  pf_name : bytes;               (* Name *)
  pf_kt : option pscalar;        (* Key; the grammar admits scalars only *)
  pf_ty : ptype;                 (* Type *)
  pf_num : Z;                    (* FieldNumber int32 *)
  pf_rep : bool;                 (* Repeated *)
  pf_req : bool;                 (* Required *)
  pf_opt : bool;                 (* Optional *)
  pf_opts : options;             (* Options *)
  pf_dirs : list bytes;          (* Directives *)
  pf_one : option nat            (* Oneof: which oneof of the message *)
}.

(** Type.GoName, type.go:46-63.  An enum is declared as int32, code.go:137. *)
Definition type_go (t : ptype) : gotype :=
  match t with PScalar s => scalar2GoTypes s | PEnum => TScalar Int32 | PMsg id => TStruct id end.
(** Type.EncodingType, type.go:85-101 *)
Definition EncodingType (t : ptype) : bytes :=
  match t with PMsg _ => bs "bytes" | PEnum => bs "varint" | PScalar s => scalar2encodingType s end.

(** Field.IsMap, field.go:72-74 *)
Definition pf_is_map (f : pfd) : bool := match pf_kt f with Some _ => true | None => false end.
(** Field.IsMessage, field.go:82-84 *)
Definition pf_is_msg (f : pfd) : bool :=
  negb (pf_is_map f) && match pf_ty f with PMsg _ => true | _ => false end.

Definition f_repeated_field_encoding := bs "features.repeated_field_encoding".
Definition f_field_presence := bs "features.field_presence".
Definition option_packed := bs "packed".

(** Field.IsPackedEncoding, field.go:87-110 *)
Definition IsPackedEncoding (c : pctx) (f : pfd) : bool :=
  if pf_is_map f then false
  else if negb (match pf_ty f with PScalar s => scalarPackedTypes s | PEnum => true | PMsg _ => false end)
  then false
  else match c_edition c with
  | Proto2 => opt_is (pf_opts f) option_packed (bs "true")
  | Edition2023 =>
      let v := match opt_get (pf_opts f) f_repeated_field_encoding with
               | Some s => s
               | None => match opt_get (c_options c) f_repeated_field_encoding with
                         | Some s => s
                         | None => bs "PACKED"
                         end
               end in
      str_eqb v (bs "PACKED")
  | Proto3 => true
  end.

(** Field.genNoPointer, field.go:119-130 *)
Definition genNoPointer (c : pctx) (f : pfd) : bool :=
  if dir_has (pf_dirs f) (bs "no_pointer") then true
  else if dir_has (c_msgdirs c) (bs "no_pointer") then true
  else match opt_get (pf_opts f) (bs "(gogoproto.nullable)") with
       | Some v => isfalse v
       | None => false
       end.

(** Field.IsPointer, field.go:161-201 *)
Definition pf_is_pointer (c : pctx) (f : pfd) : bool :=
  if genNoPointer c f then false
  else if pf_is_map f || pf_rep f || match type_go (pf_ty f) with TBytes => true | _ => false end then false
  else if pf_is_msg f then true
  else if pf_opt f then true
  else match pf_one f with
  | Some _ => false
  | None =>
      match c_edition c with
      | Proto2 => true
      | Edition2023 =>
          match opt_get (pf_opts f) f_field_presence with
          | Some s => str_eqb s (bs "EXPLICIT")
          | None => match opt_get (c_options c) f_field_presence with
                    | Some s => str_eqb s (bs "EXPLICIT")
                    | None => true
                    end
          end
      | Proto3 => false
      end
  end.

(** goTypeName, field.go:132-138 *)
Definition goTypeName (t : ptype) (noptr : bool) : gotype :=
  match t with
  | PMsg id => if noptr then TStruct id else TPtr (TStruct id)
  | _ => type_go t
  end.
(** Field.GoTypeName, field.go:141-155 *)
Definition GoTypeName (c : pctx) (f : pfd) : gotype :=
  let noptr := genNoPointer c f in
  match pf_kt f with
  | Some k => TMap (scalar2GoTypes k) (goTypeName (pf_ty f) noptr)
  | None =>
      if pf_rep f then TSlice (goTypeName (pf_ty f) noptr)
      else if pf_is_pointer c f then TPtr (type_go (pf_ty f))
      else type_go (pf_ty f)
  end.

Definition dq : bytes := [x22].   (* double quote *)

(** GoCodeGen.FieldStructTag, code.go:293-349 *)
Definition FieldStructTag (c : pctx) (f : pfd) : bytes :=
  bs "protobuf:" ++ dq ++
  (if pf_is_map f then bs "bytes" else EncodingType (pf_ty f)) ++
  bs "," ++ FormatInt (pf_num f) ++
  bs "," ++
  (if pf_rep f || pf_is_map f then bs "rep" ++ (if IsPackedEncoding c f then bs ",packed" else [])
   else if pf_req f then bs "req" else bs "opt") ++
  bs "," ++ bs "name=" ++ pf_name f ++ dq ++
  bs " json:" ++ dq ++ pf_name f ++ bs ",omitempty" ++ dq ++
  match pf_kt f with
  | Some k =>
      bs " protobuf_key:" ++ dq ++ scalar2encodingType k ++ bs ",1,opt,name=key" ++ dq ++
      bs " protobuf_val:" ++ dq ++ EncodingType (pf_ty f) ++ bs ",2,opt,name=value" ++ dq
  | None => []
  end.

(** The field the runtime finds in the compiled struct: reflection gives the type and, for
    each key, the value of the tag. *)
Section Gen.
Variable Unquote : bytes -> option bytes.

Definition reflect_field (t : gotype) (tag : bytes) : gofield :=
  mkGF t (Get Unquote tag (bs "protobuf")) (Get Unquote tag (bs "protobuf_key"))
       (Get Unquote tag (bs "protobuf_val")) (Get Unquote tag (bs "protobuf_oneof")).

(** GoCodeGen.FieldGen, code.go:351-362 *)
Definition FieldGen (c : pctx) (f : pfd) : gofield := reflect_field (GoTypeName c f) (FieldStructTag c f).

(** Message, message.go:28-50: its fields, and the names of its oneofs *)
Record pmsg := mkPM { pm_fields : list pfd; pm_oneofs : list bytes }.

(** Oneof.Fields: the fields of a oneof, with their index in Message.Fields, which here
    identifies the wrapper type of the field (OneofStructName, field.go:264-269). *)
Fixpoint oneof_fields (o : nat) (i : nat) (l : list pfd) : list (nat * pfd) :=
  match l with
  | [] => []
  | f :: r =>
      match pf_one f with
      | Some o' => if Nat.eqb o' o then (i, f) :: oneof_fields o (S i) r else oneof_fields o (S i) r
      | None => oneof_fields o (S i) r
      end
  end.

(** Oneof.FieldType, oneof.go:41-43: the interface the wrapper types of a oneof implement
    (code.go:380) *)
Definition oneof_type (c : pctx) (m : pmsg) (o : nat) : gotype :=
  TIface (map (fun p => (fst p, GoTypeName c (snd p))) (oneof_fields o 0 (pm_fields m))).

(** The fields of the struct, code.go:186-211.  [seen] is generatedOneOfField. *)
Fixpoint struct_fields (c : pctx) (m : pmsg) (seen : list nat) (l : list pfd) : list gofield :=
  match l with
  | [] => []
  | f :: r =>
      match pf_one f with
      | Some o =>
          if existsb (Nat.eqb o) seen then struct_fields c m seen r
          else reflect_field (oneof_type c m o)
                 (bs "protobuf_oneof:" ++ dq ++ nth o (pm_oneofs m) [] ++ dq)
               :: struct_fields c m (o :: seen) r
      | None => FieldGen c f :: struct_fields c m seen r
      end
  end.

(** XXX_OneofWrappers, code.go:268-278, and the wrapper types, code.go:371-376 *)
Definition wrappers (c : pctx) (m : pmsg) : list (nat * list gofield) :=
  concat (map (fun o => map (fun p => (fst p, [FieldGen c (snd p)])) (oneof_fields o 0 (pm_fields m)))
              (seq 0 (length (pm_oneofs m)))).

(** Message.genUnknownFields, message.go:84-97 *)
Definition genUnknownFields (c : pctx) : bool :=
  match dir_is_set (c_msgdirs c) (bs "unknown_fields") with
  | Some v => v
  | None =>
      match dir_is_set (c_dirs c) (bs "unknown_fields") with
      | Some v => v
      | None =>
          match opt_get (c_msgoptions c) (bs "(gogoproto.goproto_unrecognized)") with
          | Some v => istrue v
          | None => match opt_get (c_options c) (bs "(gogoproto.goproto_unrecognized_all)") with
                    | Some v => istrue v
                    | None => false
                    end
          end
      end
  end.

(** MessageGen, code.go:182-278.  The size and the zero value of the struct are Go's. *)
Definition MessageGen (E : env) (size : N) (c : pctx) (m : pmsg) : godecl :=
  let fs := struct_fields c m [] (pm_fields m) in
  mkD fs (wrappers c m) (genUnknownFields c) size
      (VStruct (map (fun g => zero_of E (gf_type g)) fs) None).
End Gen.
