(** What the types of a method should show, in terms of the objects of the files. *)
From Coq Require Import List Arith Strings.String Init.Byte.
From Verif Require Import Base GoStr GenNames GenImport Scope Listen Compile CompileSpec CompileText CompileTextSpec ServiceGen.
Import ListNotations StringSyntax.
Open Scope nat_scope.

Section Shows.
Variable F : nat -> state.
Variable E : extras.
Variable go_import : nat -> bytes.
(** The type [t] of a method of the file [p] shows the object [ob], which is declared with the Go name [n]: the
    import path of the package that declares it, and the name, with that package in front if it is another one *)
Record shows_type (p : nat) (ob : obj) (t : option bytes * obj) : Prop := {
  st_object : snd t = ob;
  st_import : type_GoImport go_import p t = go_import (file_of_obj ob);
  st_external : IsExternalType t = true <-> go_import (file_of_obj ob) <> go_import p;
  st_name : exists n, go_named F ob n /\
    (go_import (file_of_obj ob) = go_import p -> type_GoName F E t = n) /\
    (go_import (file_of_obj ob) <> go_import p -> type_GoName F E t = path_Base (go_import (file_of_obj ob)) ++ bs "." ++ n);
  st_kind : (IsMessage t = true <-> exists q j, ob = OMsg q j) /\ (IsEnum t = true <-> exists q j, ob = OEnum q j)
}.
End Shows.
