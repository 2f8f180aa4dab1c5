(** Model of the Go declarations of an enum: Enum.resolve and genNoPrefix, genMapping
    (prutalgen/pkg/prutalgen/enum.go:74-117, 149-154) and EnumGen (code.go:133-180).
    Simplified: the Go text is a list of declarations and a constant stands for its text (%d, %q); comments are left out. *)
From Coq Require Import Strings.String Init.Byte.
From Verif Require Import Base GoStr GenField GenNames NameSpec Verify.
Import StringSyntax.
Open Scope N_scope.

(** EnumField, enum.go:133-147: name, value, directives *)
Record evalue := mkEV { ev_name : bytes; ev_value : Z; ev_dirs : list bytes }.
(** Enum, enum.go:29-45.  [en_path]: its name without the package; [en_msg]: the GoName of the
    message it is nested in.  [en_pdirs], [en_popts]: the Directives and Options of the file. *)
Record genum := mkEN {
  en_path : list bytes; en_msg : option bytes; en_values : list evalue;
  en_dirs : list bytes; en_opts : options; en_pdirs : list bytes; en_popts : options }.

(** Enum.genNoPrefix, enum.go:74-87 *)
Definition enum_genNoPrefix (e : genum) : bool :=
  if dir_has (en_dirs e) (bs "no_enum_prefix") then true
  else if dir_has (en_pdirs e) (bs "no_enum_prefix") then true
  else match opt_get (en_opts e) (bs "(gogoproto.goproto_enum_prefix)") with
       | Some v => isfalse v
       | None => match opt_get (en_popts e) (bs "(gogoproto.goproto_enum_prefix_all)") with
                 | Some v => isfalse v
                 | None => false
                 end
       end.
(** EnumField.genNoPrefix, enum.go:149-154 *)
Definition genNoPrefix (e : genum) (f : evalue) : bool :=
  if dir_has (ev_dirs f) (bs "no_enum_prefix") then true else enum_genNoPrefix e.
(** Enum.genMapping, enum.go:94-102 *)
Definition genMapping (e : genum) : bool :=
  if dir_has (en_dirs e) (bs "no_enum_mapping") then false
  else if dir_has (en_pdirs e) (bs "no_enum_mapping") then false
  else true.

(** Enum.resolve, enum.go:104-117 *)
Definition enum_GoName (e : genum) : bytes := GoCamelCase (dotted (en_path e)).
Definition value_GoName (e : genum) (f : evalue) : bytes :=
  if genNoPrefix e f then GoCamelCase (ev_name f)
  else match en_msg e with
       | Some m => m ++ bs "_" ++ ev_name f
       | None => enum_GoName e ++ bs "_" ++ ev_name f
       end.

(** The entries of the X_name literal, code.go:156-163: aliases are skipped *)
Fixpoint name_entries (seen : list Z) (l : list evalue) : list (Z * bytes) :=
  match l with
  | [] => []
  | f :: r =>
      if Verify.seen seen (ev_value f) then name_entries seen r
      else (ev_value f, ev_name f) :: name_entries (ev_value f :: seen) r
  end.
(** The entries of the X_value literal, code.go:167-169 *)
Definition value_entries (l : list evalue) : list (bytes * Z) := map (fun f => (ev_name f, ev_value f)) l.

(** What EnumGen declares, code.go:133-180 *)
Inductive edecl :=
| DType (name : bytes)                                   (* type name int32 *)
| DConst (name : bytes) (type : bytes) (v : Z)           (* const name type = v *)
| DNames (name : bytes) (l : list (Z * bytes))           (* var name = map[int32]string{...} *)
| DValues (name : bytes) (l : list (bytes * Z))          (* var name = map[string]int32{...} *)
| DString (type : bytes) (names : bytes).                (* func (x type) String() string, reading names *)
Definition EnumGen (e : genum) : list edecl :=
  let n := enum_GoName e in
  DType n :: map (fun f => DConst (value_GoName e f) n (ev_value f)) (en_values e) ++
  (if genMapping e then
     [DNames (n ++ bs "_name") (name_entries [] (en_values e));
      DValues (n ++ bs "_value") (value_entries (en_values e));
      DString n (n ++ bs "_name")]
   else []).

(** ** What the Go declarations mean *)

Definition lookup {A B} (eqb : A -> A -> bool) : list (A * B) -> A -> option B :=
  fix go l k := match l with
                | [] => None
                | (a, b) :: r => if eqb a k then Some b else go r k
                end.
Definition first_decl {A} (f : edecl -> option A) : list edecl -> option A :=
  fix go l := match l with [] => None | d :: r => match f d with Some a => Some a | None => go r end end.

(** T(x).String(), code.go:174-178.  [None]: T has no such method, or the variable it reads is
    not declared. *)
Definition call_String (ds : list edecl) (T : bytes) (x : Z) : option bytes :=
  match first_decl (fun d => match d with DString t n => if str_eqb t T then Some n else None | _ => None end) ds with
  | None => None
  | Some n =>
      match first_decl (fun d => match d with DNames m l => if str_eqb m n then Some l else None | _ => None end) ds with
      | None => None
      | Some l => Some (match lookup Z.eqb l x with Some s => s | None => FormatInt x end)
      end
  end.
(** The map variable [n] from names to numbers *)
Definition read_values (ds : list edecl) (n : bytes) : option (list (bytes * Z)) :=
  first_decl (fun d => match d with DValues m l => if str_eqb m n then Some l else None | _ => None end) ds.

(** The package-level identifiers *)
Definition edecl_names (d : edecl) : list bytes :=
  match d with DType n | DConst n _ _ | DNames n _ | DValues n _ => [n] | DString _ _ => [] end.
(** Go compiles the declarations only if their identifiers differ and the constant keys of
    each map literal differ. *)
Definition compiles (ds : list edecl) : Prop :=
  NoDup (flat_map edecl_names ds) /\
  Forall (fun d => match d with DNames _ l => NoDup (map fst l) | DValues _ l => NoDup (map fst l) | _ => True end) ds.
