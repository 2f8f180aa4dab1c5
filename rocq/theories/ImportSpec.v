(** Import declarations of Go, following the Go specification ("Import declarations"), and
    what a package reference in a Go file means.  Independent of the generator. *)
From Coq Require Import Strings.String Init.Byte.
From Verif Require Import Base GoStr GenField GenSpec GenNames NameSpec.
Import StringSyntax.
Open Scope N_scope.

Definition blank (s : bytes) : Prop := Forall (fun c => c = x20 \/ c = x09) s.
(** A Go identifier (of ASCII letters), lower case as package names are, and not a keyword. *)
Definition go_keywords : list bytes :=
  [bs "break"; bs "default"; bs "func"; bs "interface"; bs "select"; bs "case"; bs "defer"; bs "go"; bs "map"; bs "struct";
   bs "chan"; bs "else"; bs "goto"; bs "package"; bs "switch"; bs "const"; bs "fallthrough"; bs "if"; bs "range"; bs "type";
   bs "continue"; bs "for"; bs "import"; bs "return"; bs "var"].
Definition package_name (s : bytes) : Prop :=
  (exists c r, s = c :: r /\ (is_lower c = true \/ c = x5f) /\ Forall ident_char r) /\ ~ In s go_keywords /\ s <> bs "_".
(** The characters of an import path: printable ASCII except those the Go compiler refuses. *)
Definition path_char (c : byte) : Prop :=
  ident_char c \/ In c [x2d; x2e; x2f; x7e; x2b; x40].    (* - . / ~ + @ *)

(** An import: the name given to the package in the file, if any, and the path. *)
Definition import := (option bytes * bytes)%type.
Inductive import_spec : bytes -> import -> Prop :=
| is_plain a b p : blank a -> blank b -> p <> [] -> Forall path_char p ->
    import_spec (a ++ [x22] ++ p ++ [x22] ++ b) (None, p)
| is_named a n b c p : blank a -> package_name n -> blank b -> b <> [] -> blank c -> p <> [] -> Forall path_char p ->
    import_spec (a ++ n ++ b ++ [x22] ++ p ++ [x22] ++ c) (Some n, p).
(** The lines between the parentheses *)
Inductive import_body : bytes -> list import -> Prop :=
| ib_nil a : blank a -> import_body a []
| ib_empty a s l : blank a -> import_body s l -> import_body (a ++ [x0a] ++ s) l
| ib_spec t i s l : import_spec t i -> import_body s l -> import_body (t ++ [x0a] ++ s) (i :: l).
Inductive import_decl : bytes -> list import -> Prop :=
| id_none : import_decl [] []
| id_one a i : import_spec a i -> import_decl (bs "import" ++ [x20] ++ a) [i]
| id_group a s l : blank a -> import_body s l -> import_decl (bs "import" ++ a ++ bs "(" ++ s ++ bs ")") l.

(** The name of an imported package in the file.  [clause p]: the name in the package clause of
    the files of the package with import path [p]. *)
Definition local (clause : bytes -> bytes) (i : import) : bytes :=
  match fst i with Some n => n | None => clause (snd i) end.
(** The text [t], in a file of the package [home] with imports [l], refers to the identifier
    [n] of the package [p]. *)
Inductive refers (clause : bytes -> bytes) (home : bytes) (l : list import) : bytes -> bytes -> bytes -> Prop :=
| ref_home n : ident n -> refers clause home l n home n
| ref_import i n : In i l -> ident n -> refers clause home l (local clause i ++ [x2e] ++ n) (snd i) n.
(** What the compiler demands of imports: names that differ, none unused. *)
Definition imports_ok (clause : bytes -> bytes) (home : bytes) (l : list import) (texts : list bytes) : Prop :=
  NoDup (map (local clause) l) /\ Forall (fun i => package_name (local clause i)) l /\
  ~ In home (map snd l) /\
  forall i, In i l -> exists n, ident n /\ In (local clause i ++ [x2e] ++ n) texts.
