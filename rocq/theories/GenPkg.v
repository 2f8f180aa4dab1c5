(** Model of the package-level identifiers of the Go file generated for a proto file: ProtoGen,
    EnumGen and MessageGen (prutalgen/pkg/prutalgen/code.go:112-291).  Simplified: the
    declarations are a list, each with the path of its name; the names of the wrapper types of
    a message's oneofs are given (they are the subject of C47). *)
From Coq Require Import Strings.String Init.Byte.
From Verif Require Import Base GoStr GenField GenNames NameSpec GenEnum.
Import StringSyntax.
Open Scope N_scope.

Inductive fdecl := FMsg (path : list bytes) (wrappers : list bytes) | FEnum (e : genum).

(** Message.resolve, message.go:131 *)
Definition go_path (p : list bytes) : bytes := GoCamelCase (dotted p).

(** The identifiers of the types, constants and variables; code.go:133-180, 186, 214-219. *)
Definition idents (d : fdecl) : list bytes :=
  match d with
  | FMsg p ws => go_path p :: ws
  | FEnum e => flat_map edecl_names (EnumGen e)
  end.
