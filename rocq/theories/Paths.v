(** Model of the command line of prutalgen and of the files it reads and writes: main
    (prutalgen/main.go:29-65), GoOpts (pkg/utils/args/go_opts.go:32-60), searchProtoFile and
    fullFilename (pkg/prutalgen/prutalgen.go:53-89) and SourcePath (code.go:61-78).
    Simplified: paths are those of Unix, there are no symbolic links, and generated files are not
    read again as .proto files in the same run; what is in a generated file is a parameter. *)
From Coq Require Import Strings.String Init.Byte.
From Verif Require Import Base GoStr StrFacts GenEnum GenImport.
Import StringSyntax.
Open Scope N_scope.

(** path.Clean of the Go standard library, element by element; [st] holds the elements of the
    result, the last one first. *)
Definition rooted (s : bytes) : bool := match s with c :: _ => is_slash c | [] => false end.
Definition clean_step (r : bool) (st : list bytes) (e : bytes) : list bytes :=
  if str_eqb e [] || str_eqb e (bs ".") then st
  else if str_eqb e (bs "..") then
    match st with
    | [] => if r then [] else [bs ".."]
    | t :: st' => if str_eqb t (bs "..") then bs ".." :: st else st'
    end
  else e :: st.
Definition Clean (s : bytes) : bytes :=
  let st := rev (fold_left (clean_step (rooted s)) (Split x2f s) []) in
  if rooted s then x2f :: join x2f st
  else match st with [] => bs "." | _ => join x2f st end.
(** path.Join of two elements *)
Definition Join (a b : bytes) : bytes :=
  match a, b with
  | [], [] => []
  | [], _ => Clean b
  | _, [] => Clean a
  | _, _ => Clean (a ++ x2f :: b)
  end.
(** filepath.Abs; [wd] is the working directory *)
Definition Abs (wd s : bytes) : bytes := if rooted s then Clean s else Join wd s.
(** strings.TrimSuffix *)
Definition TrimSuffix (s suf : bytes) : bytes := if HasPrefix (rev s) (rev suf) then rev (skipn (length suf) (rev s)) else s.

(** GenPathType, go_opts.go:32-42 *)
Inductive pathtype := GenByImport | GenBySourceRelative.
Definition GenPathType (opts : list bytes) : pathtype :=
  fold_left (fun ret s => if str_eqb s (bs "paths=import") then GenByImport
                          else if str_eqb s (bs "paths=source_relative") then GenBySourceRelative
                          else ret) opts GenByImport.
(** strings.Cut reports whether the separator occurs *)
Definition Contains (c : byte) (s : bytes) : bool := existsb (beqb c) s.
(** Proto2pkg, go_opts.go:46-60; the map as an association list, the last assignment first *)
Definition Proto2pkg (opts : list bytes) : list (bytes * bytes) :=
  fold_left (fun ret s =>
    match s with
    | c :: s => if beqb c x4d then (if Contains x3d s then (Clean (fst (Cut x3d s)), snd (Cut x3d s)) :: ret else ret) else ret
    | [] => ret
    end) opts [].

(** fullFilename, prutalgen.go:72-76 *)
Definition fullFilename (incl file : bytes) : bytes := Join incl file.
(** searchProtoFile, prutalgen.go:78-91; [stat] says which paths exist; [None]: not found,
    which is fatal.  NewLoader (lines 53-62) appends the empty element. *)
Fixpoint search (wd : bytes) (stat : bytes -> bool) (includes : list bytes) (file : bytes) : option bytes :=
  match includes with
  | [] => None
  | incl :: r => let fn := Abs wd (fullFilename incl file) in if stat fn then Some fn else search wd stat r file
  end.
Definition searchProtoFile (wd : bytes) (stat : bytes -> bool) (includes : list bytes) (file : bytes) : option bytes :=
  search wd stat (includes ++ [[]]) file.

(** SourcePath, code.go:61-78 *)
Definition SourcePath (protofile goimport : bytes) (gt : pathtype) (out suffix : bytes) : bytes :=
  match gt with
  | GenByImport => Join out (fullFilename goimport (TrimSuffix (path_Base protofile) (bs ".proto") ++ suffix))
  | GenBySourceRelative => TrimSuffix protofile (bs ".proto") ++ suffix
  end.

(** The flags and arguments of main *)
Record cmdline := mkCL { cl_path : list bytes; cl_out : bytes; cl_opt : list bytes; cl_args : list bytes }.
Section Main.
Variable wd : bytes.
Variable stat : bytes -> bool.
(** the option go_package of a file, as parsed *)
Variable gopkg_option : bytes -> option bytes.
(** what is generated for a file *)
Variable generated : bytes -> bytes.
Variable cl : cmdline.
(** main.go:45-50 *)
Definition includes : list bytes := match cl_path cl with [] => [bs "."] | l => l end.
Definition out_dir : bytes := match cl_out cl with [] => bs "." | o => o end.
(** main.go:60-61 for one argument, with prutalgen.go:178-216: the proto file, and the file that
    is written.  [None]: a fatal error. *)
Definition gen_one (a : bytes) : option (bytes * bytes) :=
  let file := Clean a in
  match searchProtoFile wd stat includes file with
  | None => None
  | Some protofile =>
      let p := go_package (lookup str_eqb (Proto2pkg (cl_opt cl)) file) (gopkg_option protofile) in
      if package_not_set p then None
      else Some (protofile, SourcePath protofile (gp_import p) (GenPathType (cl_opt cl)) out_dir (bs ".pb.go"))
  end.
(** main.go:59-64: the files written, in order; the flag says that the end was reached *)
Fixpoint run (args : list bytes) : list (bytes * bytes) * bool :=
  match args with
  | [] => ([], true)
  | a :: r =>
      match gen_one a with
      | None => ([], false)
      | Some (p, fn) => let '(l, ok) := run r in ((fn, generated p) :: l, ok)
      end
  end.
Definition main : list (bytes * bytes) * bool := run (cl_args cl).
End Main.
