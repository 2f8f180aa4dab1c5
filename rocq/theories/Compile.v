(** Model of LoadProto behind the parser (prutalgen/pkg/prutalgen/prutalgen.go:90-105): the types of
    the fields and methods of all files are resolved (proto.go:137-147, message.go:118-143,
    field.go:112-117, service.go:39-46, 70-74, type.go:121-201), the numbers are verified
    (proto.go:149-167), and what is generated for a message is that of GenField.v.

    The objects are those the listeners made (Listen.v).  The names of resolved types are searched
    among these objects here; Scope.v has the same search with types given by their paths.
    Simplifications: resolve and verify go over all objects of a file instead of following the lists
    of nested messages and enums (Props_Compile.v shows that these lists reach every object); the
    Go names that resolve computes are in GenNames.v; the directives, which are found in comments,
    are given from outside (Comments.v, Directive.v). *)
From Coq Require Import List Arith Bool ZArith Strings.String Init.Byte.
From Coq Require Arith.Cantor.
From Verif Require Import Base GoStr GenField GenNames Scope Verify Listen.
Import ListNotations StringSyntax.
Open Scope nat_scope.

(** ** Names *)
(** The identifiers of a dotted name *)
Fixpoint components (s : bytes) : path :=
  match s with
  | [] => [[]]
  | c :: r =>
      if beqb c x2e then [] :: components r
      else match components r with x :: l => (c :: x) :: l | [] => [[c]] end
  end.
(** t.Name: whether it starts with a dot, and what it is without it, type.go:182-191 *)
Definition type_name (s : bytes) : bool * path :=
  match s with
  | c :: r => if beqb c x2e then (true, components r) else (false, components s)
  | [] => (false, components s)
  end.
(** Proto.Package; empty without a package statement *)
Definition package_path (s : bytes) : path := match s with [] => [] | _ => components s end.

(** The keys of scalar2GoTypes, consts.go:56-72 *)
Definition scalar_names : list (bytes * pscalar) :=
  [(bs "double", PDouble); (bs "float", PFloat); (bs "int32", PInt32); (bs "int64", PInt64);
   (bs "uint32", PUint32); (bs "uint64", PUint64); (bs "sint32", PSint32); (bs "sint64", PSint64);
   (bs "fixed32", PFixed32); (bs "fixed64", PFixed64); (bs "sfixed32", PSfixed32); (bs "sfixed64", PSfixed64);
   (bs "bool", PBool); (bs "string", PString); (bs "bytes", PBytes)].
Definition scalar_of (n : bytes) : option pscalar :=
  first_some (fun x : bytes * pscalar => if str_eqb (fst x) n then Some (snd x) else None) scalar_names.

(** ** Resolution *)
(** Type.typ: a message or an enum of a file *)
Inductive obj := OMsg (p i : nat) | OEnum (p j : nat).
Inductive found := FScalar (s : pscalar) | FObj (o : obj) | FNone.

Section Files.
(** The files by number, and their imports: whether public, and of which file *)
Variable F : nat -> state.
Variable imports : nat -> list (bool * nat).
(** As in Scope.v: a bound on the chains of public imports and the retries without the package *)
Variable fuel : nat.

Definition package (p : nat) : path := package_path (p_package (F p)).

(** for _, x := range Enums { if x.Name == name { return x } } *)
Definition enum_named (p : nat) (name : path) (js : list nat) : option obj :=
  match name with
  | [n] => first_some (fun j => match nth_error (l_enums (F p)) j with
                                | Some e => if str_eqb (er_name e) n then Some (OEnum p j) else None
                                | None => None
                                end) js
  | _ => None
  end.
(** Message.getType, message.go:99-116.  trimPathPrefix cuts one identifier. *)
Fixpoint get_msg (p : nat) (name : path) (i : nat) : option obj :=
  match name, nth_error (l_msgs (F p)) i with
  | n :: rest, Some m =>
      if str_eqb (mr_name m) n then
        match rest with
        | [] => Some (OMsg p i)
        | _ => match enum_named p rest (mr_enums m) with
               | Some o => Some o
               | None => first_some (get_msg p rest) (mr_msgs m)
               end
        end
      else None
  | _, _ => None
  end.
(** Proto.getType, proto.go:84-107 *)
Fixpoint get_file (k : nat) (p : nat) (name : path) : option obj :=
  match k with
  | O => None
  | S k =>
      match first_some (get_msg p name) (p_msgs (F p)) with
      | Some o => Some o
      | None =>
          match enum_named p name (p_enums (F p)) with
          | Some o => Some o
          | None =>
              match first_some (fun x : bool * nat => if fst x then get_file k (snd x) name else None) (imports p) with
              | Some o => Some o
              | None =>
                  match trimPathPrefix name (package p) with
                  | Some rest => get_file k p rest
                  | None => None
                  end
              end
          end
      end
  end.
(** The loop over the messages around a field, type.go:142-168; [k] bounds their number *)
Fixpoint search_around (k : nat) (p i : nat) (name : path) : option obj :=
  match k with
  | O => None
  | S k =>
      match nth_error (l_msgs (F p)) i with
      | None => None
      | Some m =>
          match get_msg p name i with
          | Some o => Some o
          | None =>
              match enum_named p name (mr_enums m) with
              | Some o => Some o
              | None =>
                  match first_some (get_msg p name) (mr_msgs m) with
                  | Some o => Some o
                  | None => match mr_parent m with Some j => search_around k p j name | None => None end
                  end
              end
          end
      end
  end.
(** The files searched, type.go:171-191 *)
Definition searched (p : nat) (dot : bool) (name : path) : list nat :=
  p :: map snd (filter (fun x => path_eqb (package p) (package (snd x))) (imports p)) ++
  (if dot then [] else map snd (filter (fun x => hasPathPrefix name (package (snd x))) (imports p))).
(** Type.resolve, type.go:121-201; [around]: the message of a field, none for the types of methods *)
Definition resolve_type (allowScalar : bool) (p : nat) (around : option nat) (s : bytes) : found :=
  match (if allowScalar then scalar_of s else None) with
  | Some x => FScalar x
  | None =>
      let '(dot, name) := type_name s in
      match (if dot then None
             else match around with Some i => search_around (length (l_msgs (F p))) p i name | None => None end) with
      | Some o => FObj o
      | None =>
          match first_some (fun x => get_file fuel x name) (searched p dot name) with
          | Some o => FObj o
          | None => FNone
          end
      end
  end.

(** ** What LoadProto accepts *)
Definition is_found (r : found) : bool := match r with FNone => false | _ => true end.
(** Proto.resolve, proto.go:137-147: no Fatalf *)
Definition resolves (p : nat) : bool :=
  forallb (fun im => forallb (fun x => is_found (resolve_type true p (Some (fst im)) (fl_type x))) (mr_fields (snd im)))
          (combine (seq 0 (length (l_msgs (F p)))) (l_msgs (F p))) &&
  forallb (fun s => forallb (fun m => is_found (resolve_type false p None (me_req m)) &&
                                      is_found (resolve_type false p None (me_ret m))) (sv_methods s)) (p_services (F p)).
(** Message.verify without its nested types, message.go:213-223, and Enum.verify, enum.go:119-131 *)
Definition verify_mrec (m : mrec) : list verr :=
  verify_fields (mr_reserved m) [] (map (fun x => (fl_name x, fl_num x)) (mr_fields m)).
Definition verify_erec (e : erec) : list verr :=
  enum_verify (mkE (map (fun x => (ef_name x, ef_value x)) (er_fields e)) (er_reserved e) (er_options e)).
(** Proto.verify, proto.go:149-167: no error *)
Definition no_errors {A} (f : A -> list verr) (l : list A) : bool :=
  forallb (fun x => match f x with [] => true | _ => false end) l.
Definition verifies (p : nat) : bool :=
  no_errors verify_erec (l_enums (F p)) && no_errors verify_mrec (l_msgs (F p)).

(** ** What is generated *)
(** Directives of a file, of a message and of a field *)
Variable file_dirs : nat -> list bytes.
Variable msg_dirs : nat -> nat -> list bytes.
Variable field_dirs : nat -> nat -> field -> list bytes.

(** The number of a message among those of all files: the type of its Go struct *)
Definition id_of (p i : nat) : nat := Cantor.to_nat (p, i).
Definition ptype_of (r : found) : option ptype :=
  match r with
  | FScalar s => Some (PScalar s)
  | FObj (OMsg p i) => Some (PMsg (id_of p i))
  | FObj (OEnum _ _) => Some PEnum
  | FNone => None
  end.
(** f.Key.GoName() and f.Key.EncodingType(), type.go:46-49, 85-101: [None]: not the name of a scalar *)
Definition key_of (k : option bytes) : option (option pscalar) :=
  match k with
  | None => Some None
  | Some s => match scalar_of s with Some x => Some (Some x) | None => None end
  end.
(** A field as the generator sees it *)
Definition field_of (p i : nat) (x : field) : option pfd :=
  match ptype_of (resolve_type true p (Some i) (fl_type x)), key_of (fl_key x) with
  | Some t, Some k =>
      Some (mkPF (fl_name x) k t (fl_num x) (fl_rep x) (fl_req x) (fl_opt x) (fl_options x) (field_dirs p i x) (fl_oneof x))
  | _, _ => None
  end.
Definition msg_of (p i : nat) (m : mrec) : option pmsg :=
  match all (field_of p i) (mr_fields m) with
  | Some fs => Some (mkPM fs (map on_name (mr_oneofs m)))
  | None => None
  end.
(** IsProto2, IsProto3 and IsEdition2023, proto.go:109-119 *)
Definition edition_of (e : bytes) : edition :=
  if str_eqb e (bs "proto2") then Proto2 else if str_eqb e (bs "proto3") then Proto3 else Edition2023.
Definition ctx_of (p i : nat) (m : mrec) : pctx :=
  mkC (edition_of (p_edition (F p))) (p_options (F p)) (file_dirs p) (mr_options m) (msg_dirs p i).
(** The Go struct of number [id]: that of a message, or an empty one if there is no such message *)
Definition struct_of (id : nat) : pctx * pmsg :=
  let '(p, i) := Cantor.of_nat id in
  match nth_error (l_msgs (F p)) i with
  | Some m => (ctx_of p i m, match msg_of p i m with Some x => x | None => mkPM [] [] end)
  | None => (mkC Proto3 [] [] [] [], mkPM [] [])
  end.
End Files.
