(** What a field declaration of a .proto file says, following the protobuf language guides
    (protobuf.dev/programming-guides and /editions/features).  Independent of the
    generator. *)
From Coq Require Import Strings.String Init.Byte.
From Verif Require Import Base Value Desc GoStr StrFacts TagSpec GenField.
Import StringSyntax.
Open Scope N_scope.

(** The wire encoding of the values of a type. *)
Definition wire_encoding (t : ptype) : tagtype :=
  match t with
  | PMsg _ | PScalar PString | PScalar PBytes => TagBytes
  | PScalar PSint32 => TagZigZag32
  | PScalar PSint64 => TagZigZag64
  | PScalar (PFixed32 | PSfixed32 | PFloat) => TagFixed32
  | PScalar (PFixed64 | PSfixed64 | PDouble) => TagFixed64
  | PScalar (PInt32 | PInt64 | PUint32 | PUint64 | PBool) | PEnum => TagVarint
  end.

Definition is_map_field (f : pfd) : Prop := pf_kt f <> None.

(** An option given in the declaration. *)
Definition given (oo : options) (name value : bytes) : Prop := In (name, value) oo.

(** A field is encoded as packed when it is a repeated numeric, bool or enum field and
    - in proto2 it says packed = true;
    - in proto3 it does not say packed = false;
    - in edition 2023 it, or else the file, or else the default, says PACKED. *)
Definition packable (t : ptype) : Prop :=
  match t with PMsg _ | PScalar PString | PScalar PBytes => False | _ => True end.
Definition packed_declared (c : pctx) (f : pfd) : Prop :=
  pf_rep f = true /\ packable (pf_ty f) /\
  match c_edition c with
  | Proto2 => given (pf_opts f) option_packed (bs "true")
  | Proto3 => ~ given (pf_opts f) option_packed (bs "false")
  | Edition2023 =>
      given (pf_opts f) f_repeated_field_encoding (bs "PACKED") \/
      ((forall v, ~ given (pf_opts f) f_repeated_field_encoding v) /\
       ~ given (c_options c) f_repeated_field_encoding (bs "EXPANDED"))
  end.

(** A field that tells apart unset and zero is a pointer in Go: those of proto2, those that
    are optional, and those of edition 2023 unless the field, or else the file, says
    IMPLICIT.  Members of a oneof, lists, maps and byte slices need none. *)
Definition explicit_presence (c : pctx) (f : pfd) : Prop :=
  pf_opt f = true \/
  match c_edition c with
  | Proto2 => True
  | Proto3 => False
  | Edition2023 =>
      ~ given (pf_opts f) f_field_presence (bs "IMPLICIT") /\
      ((exists v, given (pf_opts f) f_field_presence v) \/
       ~ given (c_options c) f_field_presence (bs "IMPLICIT"))
  end.

(** The user asks for values instead of pointers. *)
Definition no_pointer (c : pctx) (f : pfd) : Prop :=
  In (bs "no_pointer") (pf_dirs f) \/ In (bs "no_pointer") (c_msgdirs c) \/
  given (pf_opts f) (bs "(gogoproto.nullable)") (bs "false").

(** The Go type of a field. *)
Definition go_scalar (s : pscalar) : gotype :=
  match s with
  | PDouble => TScalar Float64 | PFloat => TScalar Float32
  | PInt32 | PSint32 | PSfixed32 => TScalar Int32
  | PInt64 | PSint64 | PSfixed64 => TScalar Int64
  | PUint32 | PFixed32 => TScalar Uint32
  | PUint64 | PFixed64 => TScalar Uint64
  | PBool => TScalar Bool | PString => TString | PBytes => TBytes
  end.
(** of an element of a list or map, and of a message *)
Inductive go_elem (c : pctx) (f : pfd) : gotype -> Prop :=
| ge_scalar s : pf_ty f = PScalar s -> go_elem c f (go_scalar s)
| ge_enum : pf_ty f = PEnum -> go_elem c f (TScalar Int32)
| ge_msg id : pf_ty f = PMsg id -> ~ no_pointer c f -> go_elem c f (TPtr (TStruct id))
| ge_val id : pf_ty f = PMsg id -> no_pointer c f -> go_elem c f (TStruct id).
Inductive go_field (c : pctx) (f : pfd) : gotype -> Prop :=
| gt_map k t : pf_kt f = Some k -> go_elem c f t -> go_field c f (TMap (go_scalar k) t)
| gt_list t : pf_kt f = None -> pf_rep f = true -> go_elem c f t -> go_field c f (TSlice t)
| gt_ptr t : pf_kt f = None -> pf_rep f = false -> go_elem c f t -> pf_one f = None ->
    ~ no_pointer c f -> explicit_presence c f -> (forall id, pf_ty f <> PMsg id) ->
    pf_ty f <> PScalar PBytes -> go_field c f (TPtr t)
| gt_value t : pf_kt f = None -> pf_rep f = false -> go_elem c f t ->
    (pf_one f <> None \/ no_pointer c f \/ ~ explicit_presence c f \/ (exists id, pf_ty f = PMsg id) \/
     pf_ty f = PScalar PBytes) -> go_field c f t.

(** An identifier: letters, digits and underscores. *)
Definition ident_char (c : byte) : Prop :=
  is_digit c = true \/ is_lower c = true \/ is_upper c = true \/ c = x5f.
Definition ident (s : bytes) : Prop := s <> [] /\ Forall ident_char s.

Definition map_key (k : pscalar) : Prop :=
  match k with PDouble | PFloat | PBytes => False | _ => True end.

(** A legal field declaration: what the grammar and protoc admit. *)
Record legal_field (c : pctx) (f : pfd) : Prop := {
  lf_name : ident (pf_name f);
  lf_num : (1 <= pf_num f < 2^29)%Z;
  (** at most one label *)
  lf_label : (pf_rep f = true -> pf_req f = false /\ pf_opt f = false) /\
             (pf_req f = true -> pf_opt f = false);
  (** maps and members of oneofs have no label; map keys are integers, bools or strings *)
  lf_map : forall k, pf_kt f = Some k ->
    map_key k /\ pf_rep f = false /\ pf_req f = false /\ pf_opt f = false /\ pf_one f = None;
  lf_one : forall o, pf_one f = Some o -> pf_rep f = false /\ pf_req f = false /\ pf_opt f = false;
  (** no option is given twice, and the values of options are legal *)
  lf_once : NoDup (map fst (pf_opts f)) /\ NoDup (map fst (c_options c));
  lf_packed : forall v, given (pf_opts f) option_packed v -> v = bs "true" \/ v = bs "false";
  lf_encoding : forall v, given (pf_opts f) f_repeated_field_encoding v \/ given (c_options c) f_repeated_field_encoding v ->
    v = bs "PACKED" \/ v = bs "EXPANDED";
  lf_presence : forall v, given (pf_opts f) f_field_presence v ->
    v = bs "EXPLICIT" \/ v = bs "IMPLICIT" \/ v = bs "LEGACY_REQUIRED";
  lf_file_presence : forall v, given (c_options c) f_field_presence v -> v = bs "EXPLICIT" \/ v = bs "IMPLICIT"
}.

(** A legal message: distinct numbers, fields that name oneofs of the message. *)
Record legal_message (c : pctx) (m : pmsg) : Prop := {
  lm_fields : Forall (legal_field c) (pm_fields m);
  lm_nums : NoDup (map pf_num (pm_fields m));
  lm_oneofs : forall f o, In f (pm_fields m) -> pf_one f = Some o -> (o < length (pm_oneofs m))%nat;
  lm_names : Forall ident (pm_oneofs m)
}.

(** strconv.Unquote leaves printable ASCII without quotes and backslashes alone. *)
Definition unquotes (U : bytes -> option bytes) : Prop :=
  forall s, Forall (fun c => 32 <= b2n c < 127 /\ c <> x22 /\ c <> x5c) s -> U s = Some s.

(** Storage for unknown fields is asked for by the directive unknown_fields (and refused by
    no_unknown_fields) of the message, or else of the file, or else by the gogoproto options
    of the message, or else of the file. *)
Definition on (dd : list bytes) : Prop := In (bs "unknown_fields") dd.
Definition off (dd : list bytes) : Prop := In (bs "no_unknown_fields") dd.
Definition keeps_unknown (c : pctx) : Prop :=
  on (c_msgdirs c) \/
  (~ off (c_msgdirs c) /\
   (on (c_dirs c) \/
    (~ off (c_dirs c) /\
     (given (c_msgoptions c) (bs "(gogoproto.goproto_unrecognized)") (bs "true") \/
      ((forall v, ~ given (c_msgoptions c) (bs "(gogoproto.goproto_unrecognized)") v) /\
       given (c_options c) (bs "(gogoproto.goproto_unrecognized_all)") (bs "true")))))).
