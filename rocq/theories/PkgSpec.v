(** The names of a proto file and their usual style, independent of the generator. *)
From Coq Require Import Strings.String Init.Byte.
From Verif Require Import Base GoStr GenField GenNames NameSpec GenEnum GenPkg.
Import StringSyntax.
Open Scope N_scope.

Definition path_of (d : fdecl) : list bytes := match d with FMsg p _ => p | FEnum e => en_path e end.
(** All names a file declares: an enum's values are siblings of the enum. *)
Definition full_names (d : fdecl) : list (list bytes) :=
  match d with
  | FMsg p _ => [p]
  | FEnum e => en_path e :: map (fun v => removelast (en_path e) ++ [ev_name v]) (en_values e)
  end.

(** CamelCase2: a capital first, letters and digits, some of them lower case, none of these
    after a digit *)
Fixpoint camel_tail (digit : bool) (s : bytes) : Prop :=
  match s with
  | [] => True
  | c :: r => (is_digit c = true /\ camel_tail true r) \/ (is_upper c = true /\ camel_tail false r) \/
              (is_lower c = true /\ digit = false /\ camel_tail false r)
  end.
Definition type_style (s : bytes) : Prop :=
  (exists c r, s = c :: r /\ is_upper c = true /\ camel_tail false r) /\ exists c, In c s /\ is_lower c = true.
(** UPPER_CASE: some capital, nothing in lower case *)
Definition value_style (s : bytes) : Prop :=
  (exists c, In c s /\ is_upper c = true) /\ forall c, In c s -> is_lower c = false.
(** The Go name of a field foo_bar: no underscore, a capital first, something in lower case *)
Definition field_style (s : bytes) : Prop :=
  (exists c r, s = c :: r /\ is_upper c = true) /\ (exists c, In c s /\ is_lower c = true) /\ ~ In x5f s.

(** A message's wrapper type is M_Field, perhaps with underscores, and not one of the types
    nested in M (C47). *)
Definition wrapper_style (paths : list (list bytes)) (p : list bytes) (w : bytes) : Prop :=
  (exists f, field_style f /\ underscored (go_path p ++ bs "_" ++ f) w) /\
  forall n, In (p ++ [n]) paths -> w <> go_path (p ++ [n]).

Definition decl_style (paths : list (list bytes)) (d : fdecl) : Prop :=
  path_of d <> [] /\ Forall type_style (path_of d) /\
  match d with
  | FMsg p ws => NoDup ws /\ Forall (wrapper_style paths p) ws
  | FEnum e => Forall (fun v => value_style (ev_name v) /\ genNoPrefix e v = false) (en_values e) /\
      en_msg e = match en_path e with [_] => None | p => Some (go_path (removelast p)) end
  end.
