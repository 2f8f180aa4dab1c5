(** Names, independent of the generator. *)
From Coq Require Import Strings.String Init.Byte.
From Verif Require Import Base GoStr GenField GenSpec GenNames.
Import StringSyntax.
Open Scope N_scope.

Definition letter (c : byte) : Prop := is_lower c = true \/ is_upper c = true.

(** IDENTIFIER of the protobuf grammar: a letter or underscore, then letters, digits and
    underscores. *)
Definition proto_name (s : bytes) : Prop :=
  exists c r, s = c :: r /\ (letter c \/ c = x5f) /\ Forall ident_char r.
Fixpoint dotted (l : list bytes) : bytes :=
  match l with
  | [] => []
  | [s] => s
  | s :: r => s ++ x2e :: dotted r
  end.
(** The name of a nested declaration: Outer.Inner *)
Definition full_name (s : bytes) : Prop := exists l, l <> [] /\ Forall proto_name l /\ s = dotted l.

(** An exported Go identifier (of ASCII letters). *)
Definition exported (s : bytes) : Prop :=
  exists c r, s = c :: r /\ is_upper c = true /\ Forall ident_char r.

(** A word: lower case letters, then digits. *)
Definition word (s : bytes) : Prop :=
  exists l d, s = l ++ d /\ l <> [] /\ Forall (fun c => is_lower c = true) l /\ Forall (fun c => is_digit c = true) d.
(** foo_bar2_baz *)
Fixpoint snake (l : list bytes) : bytes :=
  match l with
  | [] => []
  | [s] => s
  | s :: r => s ++ x5f :: snake r
  end.
Definition upper (c : byte) : byte := n2b (b2n c - (97 - 65)).
Definition capitalize (s : bytes) : bytes := match s with [] => [] | c :: r => upper c :: r end.

(** [t] is [s] followed by underscores. *)
Definition underscored (s t : bytes) : Prop := exists k, t = s ++ repeat x5f k.

(** All messages and enums declared in a file, nested or not, by path. *)
Inductive declares_msg : list mtree -> list bytes -> Prop :=
| dm_here ms n es sub : In (MT n es sub) ms -> declares_msg ms [n]
| dm_in ms n es sub p : In (MT n es sub) ms -> declares_msg sub p -> declares_msg ms (n :: p).
Inductive declares_enum : list bytes -> list mtree -> list bytes -> Prop :=
| de_here es ms e : In e es -> declares_enum es ms [e]
| de_in es ms n es' sub p : In (MT n es' sub) ms -> declares_enum es' sub p -> declares_enum es ms (n :: p).

(** No two messages, and no two enums, of the same scope have the same name. *)
Inductive distinct_names : list bytes -> list mtree -> Prop :=
| dn es ms : NoDup es -> NoDup (map (fun m => match m with MT n _ _ => n end) ms) ->
    (forall n es' sub, In (MT n es' sub) ms -> distinct_names es' sub) -> distinct_names es ms.

(** The methods every protobuf message has or may have in Go. *)
Definition message_methods : list bytes :=
  [bs "Reset"; bs "String"; bs "ProtoMessage"; bs "Marshal"; bs "Unmarshal";
   bs "ExtensionRangeArray"; bs "ExtensionMap"; bs "Descriptor"].
(** The names of the oneofs' fields. *)
Fixpoint oneof_go (l : list rfield) : list bytes :=
  match l with
  | [] => []
  | n :: r => match rf_oneof n with Some (_, g) => g :: oneof_go r | None => oneof_go r end
  end.

(** The oneofs that have fields, in the order of their first fields ([seen] excluded). *)
Fixpoint first_oneofs (seen : list nat) (l : list pfd) : list nat :=
  match l with
  | [] => []
  | f :: r =>
      match pf_one f with
      | Some o => if existsb (Nat.eqb o) seen then first_oneofs seen r else o :: first_oneofs (o :: seen) r
      | None => first_oneofs seen r
      end
  end.
