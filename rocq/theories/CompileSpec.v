(** What the theorems about whole files ask of them, and which objects the lists of a file reach. *)
From Coq Require Import List ZArith Strings.String Init.Byte.
From Verif Require Import Base GoStr GenField GenNames Scope Listen ListenSpec Compile.
Import ListNotations StringSyntax.

(** What protobuf asks of a field and prutalgen does not look at: the number is in range, no
    option is given twice, and the values of these options are known ones. *)
Record legal_decl (x : field) : Prop := {
  ld_num : (1 <= fl_num x < 2^29)%Z;
  ld_once : NoDup (map fst (fl_options x));
  ld_packed : forall v, In (bs "packed", v) (fl_options x) -> v = bs "true" \/ v = bs "false";
  ld_encoding : forall v, In (bs "features.repeated_field_encoding", v) (fl_options x) -> v = bs "PACKED" \/ v = bs "EXPANDED";
  ld_presence : forall v, In (bs "features.field_presence", v) (fl_options x) ->
    v = bs "EXPLICIT" \/ v = bs "IMPLICIT" \/ v = bs "LEGACY_REQUIRED"
}.
Definition legal_decls (st : state) : Prop :=
  NoDup (map fst (p_options st)) /\
  forall i m x, nth_error (l_msgs st) i = Some m -> In x (mr_fields m) -> legal_decl x.

(** The messages that the lists of a file reach *)
Inductive reached (st : state) : nat -> Prop :=
| reached_top i : In i (p_msgs st) -> reached st i
| reached_in j m i : reached st j -> nth_error (l_msgs st) j = Some m -> In i (mr_msgs m) -> reached st i.
Definition reached_enum (st : state) (j : nat) : Prop :=
  In j (p_enums st) \/ exists i m, reached st i /\ nth_error (l_msgs st) i = Some m /\ In j (mr_enums m).

(** ** The files as Scope.v has them *)
(** What is declared in a message *)
Fixpoint mtree_of (t : tmsg) : mtree :=
  match t with TM n _ _ es ms _ _ => MT n (map te_name es) (map mtree_of ms) end.
Definition pfile_of (t : tfile) (imports : list (bool * nat)) : pfile :=
  mkFile (package_path (tf_package t)) (map te_name (tf_enums t)) (map mtree_of (tf_msgs t)) imports.
(** The object [o] of file [p] is declared with this path below the package. *)
Inductive obj_at (p : nat) (st : state) : obj -> path -> Prop :=
| oa_msg i m : In i (p_msgs st) -> nth_error (l_msgs st) i = Some m -> obj_at p st (OMsg p i) [mr_name m]
| oa_enum j e : In j (p_enums st) -> nth_error (l_enums st) j = Some e -> obj_at p st (OEnum p j) [er_name e]
| oa_sub i q m k n : obj_at p st (OMsg p i) q -> nth_error (l_msgs st) i = Some m -> In k (mr_msgs m) ->
    nth_error (l_msgs st) k = Some n -> obj_at p st (OMsg p k) (q ++ [mr_name n])
| oa_sub_enum i q m j e : obj_at p st (OMsg p i) q -> nth_error (l_msgs st) i = Some m -> In j (mr_enums m) ->
    nth_error (l_enums st) j = Some e -> obj_at p st (OEnum p j) (q ++ [er_name e]).
Definition file_of_obj (o : obj) : nat := match o with OMsg p _ | OEnum p _ => p end.
(** The search among the objects and the one among the paths find the same *)
Definition same_result (F : nat -> state) (r : Compile.found) (r' : resolved) : Prop :=
  match r, r' with
  | FScalar _, RScalar => True
  | FObj o, RType x q => file_of_obj o = x /\ obj_at x (F x) o q
  | FNone, RNotFound => True
  | _, _ => False
  end.

(** ** What the generator is given *)
(** The names of the scalar types *)
Definition scalar_spelled (s : bytes) (k : pscalar) : Prop :=
  match k with
  | PDouble => s = bs "double" | PFloat => s = bs "float" | PInt32 => s = bs "int32" | PInt64 => s = bs "int64"
  | PUint32 => s = bs "uint32" | PUint64 => s = bs "uint64" | PSint32 => s = bs "sint32" | PSint64 => s = bs "sint64"
  | PFixed32 => s = bs "fixed32" | PFixed64 => s = bs "fixed64" | PSfixed32 => s = bs "sfixed32" | PSfixed64 => s = bs "sfixed64"
  | PBool => s = bs "bool" | PString => s = bs "string" | PBytes => s = bs "bytes"
  end.
(** The type of a field with the type name [s], for which the search finds [r].  [id]: the numbers of the structs. *)
Inductive type_for (F : nat -> state) (id : nat -> nat -> nat) (r : found) (s : bytes) : ptype -> Prop :=
| tf_scalar k : r = FScalar k -> scalar_spelled s k -> type_for F id r s (PScalar k)
| tf_enum q j e : r = FObj (OEnum q j) -> nth_error (l_enums (F q)) j = Some e -> type_for F id r s PEnum
| tf_message q j m : r = FObj (OMsg q j) -> nth_error (l_msgs (F q)) j = Some m -> type_for F id r s (PMsg (id q j)).
(** The field [f] is the declared [x], with directives [dirs] *)
Record field_for (F : nat -> state) (id : nat -> nat -> nat) (r : found) (dirs : list bytes) (x : field) (f : pfd) : Prop := {
  ff_name : pf_name f = fl_name x;
  ff_num : pf_num f = fl_num x;
  ff_labels : pf_rep f = fl_rep x /\ pf_req f = fl_req x /\ pf_opt f = fl_opt x;
  ff_oneof : pf_one f = fl_oneof x;
  ff_options : pf_opts f = fl_options x;
  ff_dirs : pf_dirs f = dirs;
  ff_key : match fl_key x with None => pf_kt f = None | Some s => exists k, pf_kt f = Some k /\ scalar_spelled s k end;
  ff_type : type_for F id r (fl_type x) (pf_ty f)
}.
