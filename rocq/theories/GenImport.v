(** Model of the package references and imports of a generated Go file: Proto.setGoPackage
    (prutalgen/pkg/prutalgen/proto.go:72-82), Type.GoName and Type.resolve (type.go:46-63,
    193-196), UsePkg, genImports and Bytes (codewriter.go:62-166) and their uses in code.go. *)
From Coq Require Import Strings.String Init.Byte.
From Verif Require Import Base GoStr GenField GenNames NameSpec GenEnum GenPkg Scope.
Import StringSyntax.
Open Scope N_scope.

(** path.Base of the Go standard library *)
Definition is_slash (c : byte) : bool := beqb c x2f.
Fixpoint take_while (p : byte -> bool) (s : bytes) : bytes :=
  match s with [] => [] | c :: r => if p c then c :: take_while p r else [] end.
Definition path_Base (p : bytes) : bytes :=
  match p with
  | [] => bs "."
  | _ => match drop_while is_slash (rev p) with
         | [] => bs "/"
         | q => rev (take_while (fun c => negb (is_slash c)) q)
         end
  end.

(** GoImport and GoPackage of a Proto, proto.go:43-44 *)
Record gopkg := mkGP { gp_import : bytes; gp_name : bytes }.
(** setGoPackage, proto.go:72-82 *)
Definition setGoPackage (s : bytes) (p : gopkg) : gopkg :=
  let '(imp, pkg) := Cut x3b s in
  let imp := TrimSpace imp in
  let pkg := TrimSpace pkg in
  mkGP imp (match pkg with
            | _ :: _ => pkg
            | [] => match imp with [] => gp_name p | _ => path_Base imp end
            end).
(** The go_package of a file: first from the M options (prutalgen.go:202), then from the option
    in the file (prutalgen.go:257-260) *)
Definition go_package (mapped option : option bytes) : gopkg :=
  let p := setGoPackage (match mapped with Some s => s | None => [] end) (mkGP [] []) in
  match option with Some s => setGoPackage s p | None => p end.
(** `option "go_package" not set`, prutalgen.go:261-263 *)
Definition package_not_set (p : gopkg) : bool := match gp_name p with [] => true | _ => false end.

(** ** References to types *)
Section Refs.
Variable F : nat -> pfile.
Variable G : nat -> gopkg.

(** A type name in a file: the messages around it, a leading dot, the name. *)
Record tref := mkRef { r_chain : list (Scope.path * mtree); r_dot : bool; r_name : Scope.path }.

(** Type.p after resolve, type.go:130, 192-196: the file whose getType found the type, if that
    is in another Go package *)
Definition type_p (fuel : nat) (p : nat) (r : tref) : option nat :=
  match (if r_dot r then None else search_messages (r_chain r) (r_name r)) with
  | Some _ => None
  | None =>
      match first_some (fun x => match proto_getType F fuel x (r_name r) with Some _ => Some x | None => None end)
              (search_files F p (r_dot r) (r_name r)) with
      | Some x => if str_eqb (gp_import (G x)) (gp_import (G p)) then None else Some x
      | None => None
      end
  end.
(** Type.GoName, type.go:46-63, of a type that is an enum or a message *)
Definition type_GoName (fuel : nat) (p : nat) (r : tref) : option bytes :=
  match resolve F fuel true p (r_chain r) (r_dot r) (r_name r) with
  | RType _ t =>
      Some (match type_p fuel p r with
            | None => go_path t
            | Some x => path_Base (gp_import (G x)) ++ bs "." ++ go_path t
            end)
  | _ => None
  end.
End Refs.

(** ** CodeWriter *)

(** CodeWriter.pkgs: import path -> alias *)
Definition pkgmap := list (bytes * bytes).
Fixpoint set_pkg (m : pkgmap) (p a : bytes) : pkgmap :=
  match m with
  | [] => [(p, a)]
  | (q, b) :: r => if str_eqb q p then (q, a) :: r else (q, b) :: set_pkg r p a
  end.
(** UsePkg, codewriter.go:78-87 *)
Definition UsePkg (m : pkgmap) (p a : bytes) : pkgmap :=
  match p with
  | [] => m
  | _ => if str_eqb (path_Base p) a then set_pkg m p [] else set_pkg m p a
  end.

(** strconv.Quote (the verb %q) of printable ASCII *)
Fixpoint quote_body (s : bytes) : bytes :=
  match s with
  | [] => []
  | c :: r => if beqb c x22 || beqb c x5c then x5c :: c :: quote_body r else c :: quote_body r
  end.
Definition Quote (s : bytes) : bytes := [x22] ++ quote_body s ++ [x22].

(** a < b of strings *)
Fixpoint str_ltb (a b : bytes) : bool :=
  match a, b with
  | _, [] => false
  | [], _ :: _ => true
  | x :: a', y :: b' => if beqb x y then str_ltb a' b' else b2n x <? b2n y
  end.

(** defaultGroupingFunc, codewriter.go:35-40 *)
Definition defaultGroupingFunc (pkg : bytes) : Z :=
  if HasPrefix pkg (bs "github.com/cloudwego/") then 10%Z else 0%Z.

Definition nl : bytes := [x0a].
Section Writer.
(** sort.Slice: [sort_Slice less l] *)
Variable sort_Slice : (Z * bytes -> Z * bytes -> bool) -> list (Z * bytes) -> list (Z * bytes).

(** The order of the imports, codewriter.go:122-128 *)
Definition import_less (a b : Z * bytes) : bool :=
  if (fst a =? fst b)%Z then str_ltb (snd a) (snd b) else (fst a <? fst b)%Z.
Definition alias_of (m : pkgmap) (p : bytes) : bytes :=
  match find (fun x => str_eqb (fst x) p) m with Some (_, a) => a | None => [] end.
(** The lines of the group, codewriter.go:133-138 *)
Fixpoint import_lines (m : pkgmap) (prev : option Z) (pp : list (Z * bytes)) : bytes :=
  match pp with
  | [] => []
  | (w, p) :: r =>
      (match prev with Some v => if (v =? w)%Z then [] else nl | None => [] end) ++
      alias_of m p ++ bs " " ++ Quote p ++ nl ++ import_lines m (Some w) r
  end.
(** genImports, codewriter.go:98-141; [m] lists the entries in the order of the iteration over
    the map *)
Definition genImports (grouping : bytes -> Z) (m : pkgmap) : bytes :=
  match m with
  | [] => []
  | [(p, a)] => bs "import " ++ a ++ bs " " ++ Quote p
  | _ => bs "import (" ++ nl ++
         import_lines m None (sort_Slice import_less (map (fun x => (grouping (fst x), fst x)) m)) ++ bs ")"
  end.

(** bytes.Replace(s, old, new, 1) for a non-empty old *)
Fixpoint Replace1 (s old new : bytes) : bytes :=
  if HasPrefix s old then new ++ skipn (length old) s
  else match s with [] => [] | c :: r => c :: Replace1 r old new end.

Definition importPlaceHolder : bytes := bs "{PRUTALGEN_GO_IMPORTS}".
(** CodeWriter, codewriter.go:43-48 *)
Record writer := mkWriter { w_buf : bytes; w_pkgs : pkgmap; w_grouping : bytes -> Z }.
(** What CodeWriter.F does to the buffer, codewriter.go:148-163: [text] is [format] or, with
    arguments, what fmt.Fprintf makes of them.  (The buffer is never empty after Reset.) *)
Definition F (buf format text : bytes) : bytes :=
  match format with
  | [] => buf ++ nl
  | _ => let b := buf ++ text in if beqb (last b x00) x0a then b else b ++ nl
  end.
(** CodeWriter.Reset, codewriter.go:62-75 *)
Definition writer_Reset (header pkg : bytes) (w : writer) : writer :=
  let b := match header with [] => [] | _ => F (F [] (bs "%s") header) [] [] end in
  mkWriter (F (F (F (F b (bs "package %s") (bs "package " ++ pkg)) [] []) importPlaceHolder importPlaceHolder) [] [])
           [] (w_grouping w).
(** NewCodeWriter, codewriter.go:51-60 *)
Definition NewCodeWriter (header pkg : bytes) : writer :=
  writer_Reset header pkg (mkWriter [] [] defaultGroupingFunc).
(** The calls of a CodeWriter: Reset, UsePkg, SetGroupingFunc (of a function that is not nil),
    Write and F *)
Inductive call :=
| Call_Reset (header pkg : bytes) | Call_UsePkg (p a : bytes) | Call_Grouping (g : bytes -> Z)
| Call_Write (s : bytes) | Call_F (format text : bytes).
Definition do_call (w : writer) (c : call) : writer :=
  match c with
  | Call_Reset h p => writer_Reset h p w
  | Call_UsePkg p a => mkWriter (w_buf w) (UsePkg (w_pkgs w) p a) (w_grouping w)
  | Call_Grouping g => mkWriter (w_buf w) (w_pkgs w) g
  | Call_Write s => mkWriter (w_buf w ++ s) (w_pkgs w) (w_grouping w)
  | Call_F f t => mkWriter (F (w_buf w) f t) (w_pkgs w) (w_grouping w)
  end.
Definition do_calls (w : writer) (cs : list call) : writer := fold_left do_call cs w.
(** CodeWriter.Bytes, codewriter.go:165-169; [m] lists the packages in the order of the
    iteration over the map *)
Definition Bytes (w : writer) (m : pkgmap) : bytes :=
  Replace1 (w_buf w) importPlaceHolder (genImports (w_grouping w) m).
End Writer.

(** ** The imports of a file *)

(** What ProtoGen asks for: strconv for the String method of an enum (code.go:172), prutal for
    the methods Marshal and Unmarshal (code.go:219), and the packages of the types of fields
    (FieldGen, code.go:356-358; the types of map keys are scalars). *)
Inductive use := UseStrconv | UsePrutal | UseRef (r : tref).
Definition do_use (F : nat -> pfile) (G : nat -> gopkg) (fuel p : nat) (m : pkgmap) (u : use) : pkgmap :=
  match u with
  | UseStrconv => UsePkg m (bs "strconv") []
  | UsePrutal => UsePkg m (bs "github.com/cloudwego/prutal") []
  | UseRef r => match type_p F G fuel p r with
                | Some x => UsePkg m (gp_import (G x)) []
                | None => m
                end
  end.
Definition file_pkgs (F : nat -> pfile) (G : nat -> gopkg) (fuel p : nat) (us : list use) : pkgmap :=
  fold_left (do_use F G fuel p) us [].
