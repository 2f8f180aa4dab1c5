(** Model of what ProtoGen is given for a loaded file: Message.resolve and Enum.resolve
    (prutalgen/pkg/prutalgen/message.go:69-78, 118-200, enum.go:61-70, 104-117) on the objects of Listen.v,
    Type.GoName and Type.p (type.go:46-63, 169-199), and the lists that ProtoGen and MessageGen follow
    (code.go:112-131, 281-291).
    The directives and the comments of the objects, which the listeners keep with them, and the import
    paths of the files are given from outside (Comments.v, FileComments.v, Directive.v, C66). *)
From Coq Require Import List Arith Bool ZArith Strings.String Init.Byte.
From Verif Require Import Base GoStr GenField GenNames NameSpec GenEnum GenGetter GenText Comments Scope Verify Listen Compile.
Import ListNotations StringSyntax.
Open Scope nat_scope.

(** What the objects have besides the fields of Listen.v: Directives, and HeadComment and InlineComment,
    by file and index (and index of the field or value) *)
Record extras := mkX {
  x_file_dirs : nat -> list bytes; x_msg_dirs : nat -> nat -> list bytes; x_field_dirs : nat -> nat -> field -> list bytes;
  x_enum_dirs : nat -> nat -> list bytes; x_value_dirs : nat -> nat -> nat -> list bytes;
  x_msg : nat -> nat -> comments; x_field : nat -> nat -> nat -> comments;
  x_enum : nat -> nat -> comments; x_value : nat -> nat -> nat -> comments }.

Section Text.
Variable F : nat -> state.
Variable imports : nat -> list (bool * nat).
Variable fuel : nat.
Variable E : extras.
(** Proto.GoImport *)
Variable go_import : nat -> bytes.
Definition both (c : comments) : bytes * bytes := (c_head c, c_inline c).

(** FullName without the package, message.go:69-78; [k] bounds the depth of nesting *)
Fixpoint msg_path (k p i : nat) : list bytes :=
  match k, nth_error (l_msgs (F p)) i with
  | S k, Some m => (match mr_parent m with Some j => msg_path k p j | None => [] end) ++ [mr_name m]
  | _, _ => []
  end.
Definition path_of (p i : nat) : list bytes := msg_path (length (l_msgs (F p))) p i.
(** Message.GoName, message.go:120-121 *)
Definition go_msg (p i : nat) : bytes := GoCamelCase (dotted (path_of p i)).

(** Enum as EnumGen sees it, enum.go:104-117, 133-147 *)
Definition values_of (p j : nat) (e : erec) : list evalue :=
  map (fun kx => mkEV (ef_name (snd kx)) (ef_value (snd kx)) (x_value_dirs E p j (fst kx)))
      (combine (seq 0 (length (er_fields e))) (er_fields e)).
Definition enum_of (p j : nat) (e : erec) : genum :=
  mkEN ((match er_parent e with Some i => path_of p i | None => [] end) ++ [er_name e])
       (option_map (go_msg p) (er_parent e)) (values_of p j e)
       (x_enum_dirs E p j) (er_options e) (x_file_dirs E p) (p_options (F p)).
Definition etext_of (p j : nat) : option etext :=
  match nth_error (l_enums (F p)) j with
  | Some e => Some (mkET (enum_of p j e) (c_head (x_enum E p j)) (c_inline (x_enum E p j)) (fun k => both (x_value E p j k)))
  | None => None
  end.

(** Type.p, type.go:169-197: the import path of the file in which the type was looked up, if it is another
    one; a type found in the messages around the field is of this file, 136-166 *)
Definition import_of (p i : nat) (s : bytes) : option bytes :=
  let '(dot, name) := type_name s in
  match (if dot then None else search_around F (length (l_msgs (F p))) p i name) with
  | Some _ => None
  | None =>
      match find (fun x => match get_file F imports fuel x name with Some _ => true | None => false end) (searched F imports p dot name) with
      | Some x => if str_eqb (go_import x) (go_import p) then None else Some (go_import x)
      | None => None
      end
  end.
(** The type of a field of message [i], type.go:46-63; enum.go:133-147 *)
Definition tyinfo_of (p i : nat) (s : bytes) : tyinfo :=
  match resolve_type F imports fuel true p (Some i) s with
  | FObj (OMsg q j) => mkTI (import_of p i s) (go_msg q j) []
  | FObj (OEnum q j) =>
      match nth_error (l_enums (F q)) j with
      | Some e => mkTI (import_of p i s) (enum_GoName (enum_of q j e))
                    (map (fun v => (value_GoName (enum_of q j e) v, ev_value v)) (values_of q j e))
      | None => mkTI None [] []
      end
  | _ => mkTI None [] []
  end.
(** The GoNames of the nested messages and enums, message.go:151-157 *)
Definition nested_names (p : nat) (m : mrec) : list bytes :=
  map (go_msg p) (mr_msgs m) ++
  flat_map (fun j => match nth_error (l_enums (F p)) j with Some e => [enum_GoName (enum_of p j e)] | None => [] end) (mr_enums m).
(** Message.resolve, message.go:118-143 *)
Definition minfo_of (p i : nat) (m : mrec) : option minfo :=
  match msg_of F imports fuel (x_field_dirs E) p i m with
  | Some x =>
      match resolveFieldConflicts x with
      | Some names =>
          Some (mkMI (ctx_of F (x_file_dirs E) (x_msg_dirs E) p i m) x (go_msg p i) names
                  (fun k => match nth_error (mr_fields m) k with Some f => tyinfo_of p i (fl_type f) | None => mkTI None [] [] end)
                  (fun k => match wrapper_name (nested_names p m) (go_msg p i) (rf_go (nth k names (mkRF [] None))) with Some w => w | None => [] end)
                  (fun k => both (x_field E p i k)) (c_head (x_msg E p i)) (c_inline (x_msg E p i)))
      | None => None
      end
  | None => None
  end.
(** A message with the ones in it, code.go:283-290; [k] bounds the depth of nesting *)
Fixpoint mtext_of (k p i : nat) : option mtext :=
  match k, nth_error (l_msgs (F p)) i with
  | S k, Some m =>
      match minfo_of p i m, all (mtext_of k p) (mr_msgs m) with
      | Some x, Some l => Some (MTx x l)
      | _, _ => None
      end
  | _, _ => None
  end.
(** The enums and messages of the lists of the file, code.go:112-131 *)
Definition file_text (p : nat) : option (list etext * list (list etext * mtext)) :=
  match all (etext_of p) (p_enums (F p)),
        all (fun i => match nth_error (l_msgs (F p)) i with
                      | Some m => match all (etext_of p) (mr_enums m), mtext_of (length (l_msgs (F p))) p i with
                                  | Some es, Some t => Some (es, t)
                                  | _, _ => None
                                  end
                      | None => None
                      end) (p_msgs (F p)) with
  | Some es, Some ms => Some (es, ms)
  | _, _ => None
  end.
End Text.
