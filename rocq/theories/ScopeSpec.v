(** What a type name in a .proto file means, independent of the search: the protobuf
    language guide, "Packages and Name Resolution": "first the innermost scope is searched,
    then the next-innermost, and so on, with each package considered to be inner to its
    parent package.  A leading '.' means to start from the outermost scope instead." *)
From Coq Require Import Strings.String Init.Byte.
From Verif Require Import Base GoStr GenField GenNames GenSpec NameSpec Scope.

(** The types declared in a file, by the path below its package. *)
Definition declares (f : pfile) (q : path) : Prop :=
  declares_msg (f_msgs f) q \/ declares_enum (f_enums f) (f_msgs f) q.

(** [pub F x y]: y is x or reached from x by public imports. *)
Inductive pub (F : nat -> pfile) : nat -> nat -> Prop :=
| pub_refl x : pub F x x
| pub_step x i y : In (true, i) (f_imports (F x)) -> pub F i y -> pub F x y.
(** The files whose declarations a file can use. *)
Definition visible (F : nat -> pfile) (p x : nat) : Prop :=
  x = p \/ exists b i, In (b, i) (f_imports (F p)) /\ pub F i x.
(** The full name of a declaration. *)
Definition full (F : nat -> pfile) (x : nat) (q : path) : path := f_pkg (F x) ++ q.
Definition known (F : nat -> pfile) (p : nat) (d : path) : Prop :=
  exists x q, visible F p x /\ declares (F x) q /\ d = full F x q.

(** In the scope [scope] of file [p], the name [n] means the type with full name [d]: there is
    no such type further in. *)
Definition means (F : nat -> pfile) (p : nat) (scope n d : path) : Prop :=
  exists S T, scope = S ++ T /\ d = S ++ n /\ known F p d /\
    forall S' T', scope = S' ++ T' -> length S < length S' -> ~ known F p (S' ++ n).
(** With a leading dot. *)
Definition means_dot (F : nat -> pfile) (p : nat) (n d : path) : Prop := d = n /\ known F p d.

(** The messages around a field, innermost first, each with the path of what it is in. *)
Inductive nested (top : list mtree) : list (path * mtree) -> Prop :=
| nested_none : nested top []
| nested_top m : In m top -> nested top [([], m)]
| nested_in q n es ms m l : nested top ((q, MT n es ms) :: l) -> In m ms ->
    nested top ((q ++ [n], m) :: (q, MT n es ms) :: l).
Definition scope_of (F : nat -> pfile) (p : nat) (chain : list (path * mtree)) : path :=
  f_pkg (F p) ++ match chain with [] => [] | (q, MT n _ _) :: _ => q ++ [n] end.

(** The names protobuf's compiler would accept: declared once, and none of them a package. *)
Definition unique_names (F : nat -> pfile) (p : nat) : Prop :=
  (forall x, visible F p x -> distinct_names (f_enums (F x)) (f_msgs (F x))) /\
  (forall x y q r, visible F p x -> visible F p y -> declares (F x) q -> declares (F y) r ->
     full F x q = full F y r -> x = y) /\
  (forall x y q s, visible F p x -> visible F p y -> declares (F x) q -> f_pkg (F y) <> full F x q ++ s).

(** Public imports stay in their package, and do not form cycles. *)
Definition public_ok (F : nat -> pfile) (rank : nat -> nat) : Prop :=
  forall x i, In (true, i) (f_imports (F x)) -> f_pkg (F i) = f_pkg (F x) /\ rank i < rank x.

(** No message around the field has a type of its own name directly in it. *)
Definition no_own_name (F : nat -> pfile) (p : nat) (chain : list (path * mtree)) : Prop :=
  forall q n es ms, In (q, MT n es ms) chain -> ~ declares (F p) (q ++ [n; n]).
(** No type outside messages has the name its package starts with. *)
Definition no_package_name (F : nat -> pfile) (p : nat) : Prop :=
  forall x a r, visible F p x -> f_pkg (F x) = a :: r -> ~ declares (F x) [a].
(** The name does not start with a package twice. *)
Definition package_once (F : nat -> pfile) (p : nat) (n : path) : Prop :=
  forall x r, visible F p x -> f_pkg (F x) <> [] -> n <> f_pkg (F x) ++ f_pkg (F x) ++ r.
(** Where the name could mean a type outside the messages around the field, it is either
    written in full, or it is the path of a type in the same package. *)
Definition local_or_full (F : nat -> pfile) (p : nat) (n : path) : Prop :=
  forall S T x q, f_pkg (F p) = S ++ T -> visible F p x -> declares (F x) q -> full F x q = S ++ n ->
    (S = f_pkg (F p) /\ f_pkg (F x) = f_pkg (F p)) \/ (S = [] /\ f_pkg (F x) <> []).

Definition scalar (n : path) : Prop :=
  In n (map (fun s => [s]) [bs "double"; bs "float"; bs "int32"; bs "int64"; bs "uint32"; bs "uint64"; bs "sint32"; bs "sint64";
     bs "fixed32"; bs "fixed64"; bs "sfixed32"; bs "sfixed64"; bs "bool"; bs "string"; bs "bytes"]).
