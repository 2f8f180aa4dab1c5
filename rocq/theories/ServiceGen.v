(** Model of what a service of a loaded file shows to the code that is generated for it: Service.resolve and
    Method.resolve (prutalgen/pkg/prutalgen/service.go:39-46, 68-72) and the methods of Type (type.go:42-116).
    Simplified as Compile.v and CompileText.v: objects are numbers of messages and enums in files. *)
From Coq Require Import List Arith Strings.String Init.Byte.
From Verif Require Import Base GoStr GenField GenNames GenEnum GenGetter GenImport Scope Listen Compile CompileText.
Import ListNotations StringSyntax.
Open Scope nat_scope.

(** strings.TrimPrefix *)
Definition TrimPrefix (s p : bytes) : bytes := if HasPrefix s p then skipn (length p) s else s.
(** Service.resolve, service.go:41-42 *)
Definition service_GoName (st : state) (s : service) : bytes := GoCamelCase (TrimPrefix (sv_name s) (p_package st ++ bs ".")).
(** Method.resolve, service.go:69 *)
Definition method_GoName (m : method) : bytes := GoCamelCase (me_name m).

Section Types.
Variable F : nat -> state.
Variable imports : nat -> list (bool * nat).
Variable fuel : nat.
Variable E : extras.
Variable go_import : nat -> bytes.
(** Type.p and Type.typ of a type of a method of file [p] after resolve(false), service.go:70-71, type.go:169-197 *)
Definition method_type (p : nat) (s : bytes) : option (option bytes * obj) :=
  let '(dot, name) := type_name s in
  match find (fun x => match get_file F imports fuel x name with Some _ => true | None => false end) (searched F imports p dot name) with
  | Some x =>
      match get_file F imports fuel x name with
      | Some ob => Some (if str_eqb (go_import x) (go_import p) then None else Some (go_import x), ob)
      | None => None
      end
  | None => None
  end.
(** Type.GoName, type.go:46-63 *)
Definition type_GoName (t : option bytes * obj) : bytes :=
  qualified (fst t) (match snd t with
                     | OMsg q j => go_msg F q j
                     | OEnum q j => match nth_error (l_enums (F q)) j with Some e => enum_GoName (enum_of F E q j e) | None => [] end
                     end).
(** Type.GoImport, type.go:69-79 *)
Definition type_GoImport (p : nat) (t : option bytes * obj) : bytes := match fst t with Some b => b | None => go_import p end.
(** Type.IsExternalType, Type.IsMessage, Type.IsEnum, type.go:65-67, 101-116 *)
Definition IsExternalType (t : option bytes * obj) : bool := match fst t with Some _ => true | None => false end.
Definition IsMessage (t : option bytes * obj) : bool := match snd t with OMsg _ _ => true | OEnum _ _ => false end.
Definition IsEnum (t : option bytes * obj) : bool := match snd t with OEnum _ _ => true | OMsg _ _ => false end.
End Types.
