(** What ProtoGen should be given for a loaded file, in terms of the objects of the files. *)
From Coq Require Import List Arith ZArith Strings.String Init.Byte.
From Verif Require Import Base GoStr GenField GenNames NameSpec GenEnum GenGetter GenImport ImportSpec Comments Scope Listen Compile CompileSpec GenText TextSpec Parser FileComments CompileText.
Import ListNotations StringSyntax.
Open Scope nat_scope.

Section Given.
Variable F : nat -> state.
Variable imports : nat -> list (bool * nat).
Variable fuel : nat.
Variable E : extras.
Variable go_import : nat -> bytes.
(** The Go name of an object: its path below the package, in camel case *)
Definition go_named (ob : obj) (s : bytes) : Prop :=
  exists q, obj_at (file_of_obj ob) (F (file_of_obj ob)) ob q /\ s = GoCamelCase (dotted q).
(** The values of an enum *)
Definition values_are (vs : list evalue) (e : erec) : Prop :=
  map (fun v => (ev_name v, ev_value v)) vs = map (fun x => (ef_name x, ef_value x)) (er_fields e).

Record enum_for (p j : nat) (t : etext) : Prop := {
  en_object : exists e, nth_error (l_enums (F p)) j = Some e /\ values_are (en_values (et_enum t)) e;
  en_name : go_named (OEnum p j) (enum_GoName (et_enum t));
  (** the prefix of the values of an enum in a message is the name of the message *)
  en_prefix : forall i m, nth_error (l_msgs (F p)) i = Some m -> In j (mr_enums m) ->
    exists s, en_msg (et_enum t) = Some s /\ go_named (OMsg p i) s;
  en_comments : (et_head t, et_inline t) = both (x_enum E p j) /\ forall k, et_values t k = both (x_value E p j k)
}.
Record info_for (p i : nat) (m : mrec) (x : minfo) : Prop := {
  if_struct : (mi_ctx x, mi_msg x) = struct_of F imports fuel (x_file_dirs E) (x_msg_dirs E) (x_field_dirs E) (id_of p i);
  if_name : go_named (OMsg p i) (mi_go x);
  if_names : resolveFieldConflicts (mi_msg x) = Some (mi_names x);
  (** the type that is named is the one the search finds *)
  if_types : forall k f ob, nth_error (mr_fields m) k = Some f -> resolve_type F imports fuel true p (Some i) (fl_type f) = FObj ob ->
    go_named ob (ti_name (mi_ti x k)) /\
    (** and it is one of the package that is named, if no public import is in between *)
    ((forall y z, y = p \/ In y (map snd (imports p)) -> In (true, z) (imports y) -> False) ->
     (go_import (file_of_obj ob) = go_import p -> ti_import (mi_ti x k) = None) /\
     (go_import (file_of_obj ob) <> go_import p -> ti_import (mi_ti x k) = Some (go_import (file_of_obj ob)))) /\
    (** and the values of an enum are its values *)
    (forall q j e, ob = OEnum q j -> nth_error (l_enums (F q)) j = Some e -> map snd (ti_values (mi_ti x k)) = map ef_value (er_fields e)) /\
    (** by the names that EnumGen is given for them *)
    (forall q j t, ob = OEnum q j -> etext_of F E q j = Some t -> ti_values (mi_ti x k) = map (fun v => (value_GoName (et_enum t) v, ev_value v)) (en_values (et_enum t)));
  (** the packages that are named are those of files *)
  if_imports : forall k b, ti_import (mi_ti x k) = Some b -> exists q, b = go_import q;
  (** wrappers of members of oneofs do not have the names of nested types *)
  if_wraps : forall k n, nth_error (mi_names x) k = Some n ->
    underscored (mi_go x ++ bs "_" ++ rf_go n) (mi_wrap x k) /\
    (forall j s, In j (mr_msgs m) -> go_named (OMsg p j) s -> mi_wrap x k <> s) /\
    (forall j s, In j (mr_enums m) -> go_named (OEnum p j) s -> mi_wrap x k <> s);
  if_comments : (mi_head x, mi_inline x) = both (x_msg E p i) /\ forall k, mi_fcom x k = both (x_field E p i k)
}.
Inductive message_for (p i : nat) : mtext -> Prop :=
| message_for_intro m x l : nth_error (l_msgs (F p)) i = Some m -> info_for p i m x -> Forall2 (message_for p) (mr_msgs m) l -> message_for p i (MTx x l).
(** The enums of the file, the messages of the file with all messages in them, and the enums of the messages
    at the top of the file *)
Definition file_for (p : nat) (enums : list etext) (msgs : list (list etext * mtext)) : Prop :=
  Forall2 (enum_for p) (p_enums (F p)) enums /\
  Forall2 (fun i x => (exists m, nth_error (l_msgs (F p)) i = Some m /\ Forall2 (enum_for p) (mr_enums m) (fst x)) /\ message_for p i (snd x)) (p_msgs (F p)) msgs.
End Given.

(** A comment of a file: one of those that its definitions get, or none *)
Definition of_file (o : oracle) (data : bytes) (c : comments) : Prop :=
  c = mkComments [] [] \/ exists got fc e, file_comments_of o data = Some (got, fc) /\ In (e, c) got.
(** The comments that the objects have are those of their files.  Percent signs: see C84_refuted. *)
Record comments_given (o : nat -> oracle) (data : nat -> bytes) (E : extras) : Prop := {
  cg_msg : forall p i, of_file (o p) (data p) (x_msg E p i);
  cg_field : forall p i k, of_file (o p) (data p) (x_field E p i k);
  cg_enum : forall p j, of_file (o p) (data p) (x_enum E p j) /\ ~ In x25 (c_inline (x_enum E p j));
  cg_value : forall p j k, of_file (o p) (data p) (x_value E p j k)
}.
