(** The place that a path names, without symbolic links: a list of names from the root. *)
From Coq Require Import Strings.String Init.Byte.
From Verif Require Import Base GoStr StrFacts.
Import StringSyntax.
Open Scope N_scope.

(** [elements p es]: p consists of the elements es, separated by slashes *)
Inductive elements : bytes -> list bytes -> Prop :=
| el_one e : ~ In x2f e -> elements e [e]
| el_more e p es : ~ In x2f e -> elements p es -> elements (e ++ [x2f] ++ p) (e :: es).
(** one element leads from a directory to the next *)
Inductive step : list bytes -> bytes -> list bytes -> Prop :=
| st_empty d : step d [] d
| st_dot d : step d (bs ".") d
| st_up d n : step (d ++ [n]) (bs "..") d
| st_root : step [] (bs "..") []
| st_down d n : n <> [] -> n <> bs "." -> n <> bs ".." -> step d n (d ++ [n]).
Inductive steps : list bytes -> list bytes -> list bytes -> Prop :=
| ss_nil d : steps d [] d
| ss_cons d e d' es d'' : step d e d' -> steps d' es d'' -> steps d (e :: es) d''.
(** from the directory d, p leads to d' *)
Definition leads (d : list bytes) (p : bytes) (d' : list bytes) : Prop := exists es, elements p es /\ steps d es d'.
(** [names cwd p d]: in the working directory cwd the path p names d *)
Definition names (cwd : list bytes) (p : bytes) (d : list bytes) : Prop :=
  (exists q, p = x2f :: q /\ leads [] p d) \/ ((forall q, p <> x2f :: q) /\ leads cwd p d).

(** the usual absolute path of a place *)
Definition abs_path (d : list bytes) : bytes := x2f :: join x2f d.

(** The file f in the directory i; the empty directory stands for the working directory *)
Definition under (cwd : list bytes) (i f : bytes) (d : list bytes) : Prop :=
  (i = [] /\ names cwd f d) \/ (i <> [] /\ exists I, names cwd i I /\ leads I f d).
(** the first directory that has the file counts; [ex]: which files there are *)
Inductive found (cwd : list bytes) (ex : list bytes -> bool) : list bytes -> bytes -> list bytes -> Prop :=
| fd_here i r f d : under cwd i f d -> ex d = true -> found cwd ex (i :: r) f d
| fd_next i r f d d' : under cwd i f d' -> ex d' = false -> found cwd ex r f d -> found cwd ex (i :: r) f d.

(** The name of the Go file for a .proto file *)
Inductive go_file : bytes -> bytes -> Prop :=
| gf_proto b : go_file (b ++ bs ".proto") (b ++ bs ".pb.go")
| gf_other n : (forall b, n <> b ++ bs ".proto") -> go_file n (n ++ bs ".pb.go").

(** The directory of an import path in the directory O; a slash in front does not matter *)
Definition below (O : list bytes) (imp : bytes) (D : list bytes) : Prop :=
  ((forall q, imp <> x2f :: q) /\ leads O imp D) \/ (exists q r, imp = x2f :: q /\ names [] imp r /\ D = O ++ r).

(** What protoc-gen-go takes as options: those between commas, too *)
Definition each_option (opts : list bytes) (o : bytes) : Prop := exists s, In s opts /\ In o (Split x2c s).
