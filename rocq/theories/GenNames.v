(** Model of the names prutalgen gives to Go declarations: GoCamelCase
    (prutalgen/internal/protobuf/strs/strings.go:17-57), resolveFieldConflicts and
    resolveOneofTypeConflicts (prutalgen/pkg/prutalgen/message.go:145-200), and of which
    declarations it emits (code.go:112-131, 280-290). *)
From Coq Require Import Strings.String Init.Byte.
From Verif Require Import Base GoStr GenField.
Import StringSyntax.
Open Scope N_scope.

(** c - ('a' - 'A'), strings.go:47 *)
Definition to_upper (c : byte) : byte := n2b (b2n c - 32).

Definition next_lower (s : bytes) : bool := match s with c :: _ => is_lower c | [] => false end.

(** GoCamelCase, strings.go:21-57, as a loop over the bytes.  [prev] is s[i-1] (None: i = 0);
    [word]: the inner loop of line 52 is running. *)
Fixpoint camel (prev : option byte) (word : bool) (s : bytes) : bytes :=
  match s with
  | [] => []
  | c :: r =>
      if word && is_lower c then c :: camel (Some c) true r
      else if beqb c x2e && next_lower r then camel (Some c) false r
      else if beqb c x2e then x5f :: camel (Some c) false r
      else if beqb c x5f && match prev with None => true | Some p => beqb p x2e end
      then x58 :: camel (Some c) false r
      else if beqb c x5f && next_lower r then camel (Some c) false r
      else if is_digit c then c :: camel (Some c) false r
      else (if is_lower c then to_upper c else c) :: camel (Some c) true r
  end.
Definition GoCamelCase (s : bytes) : bytes := camel None false s.

(** usedNames[n], a map[string]bool *)
Definition used (l : list bytes) (n : bytes) : bool := existsb (fun m => str_eqb m n) l.

(** for bad(n) { n += "_" }.  [None]: still bad after [fuel] rounds. *)
Fixpoint add_underscores (bad : bytes -> bool) (fuel : nat) (n : bytes) : option bytes :=
  match fuel with
  | O => None
  | S k => if bad n then add_underscores bad k (n ++ bs "_") else Some n
  end.

Definition longest (l : list bytes) : nat := fold_right (fun n m => Nat.max (length n) m) 0%nat l.
(** Rounds the loops are given: NameProofs.v shows that they never use them up. *)
Definition rounds (l : list bytes) : nat := S (S (longest l)).

(** The names reserved from the start, message.go:176-185 *)
Definition reserved_names : list bytes :=
  [bs "Reset"; bs "String"; bs "ProtoMessage"; bs "Marshal"; bs "Unmarshal";
   bs "ExtensionRangeArray"; bs "ExtensionMap"; bs "Descriptor"].

Definition Getter (n : bytes) : bytes := bs "Get" ++ n.

(** A field as resolveFieldConflicts sees it: its name and oneof, and, after it, its GoName
    and, if it is the first of its oneof, the GoName of the oneof. *)
Record rfield := mkRF { rf_go : bytes; rf_oneof : option (nat * bytes) }.

(** resolveFieldConflicts, message.go:186-199.  [oo] are the oneofs' GoNames so far
    (GoCamelCase of their names, message.go:137-139), [seen] the oneofs whose first field is
    behind us: f.Oneof.Fields[0] == f holds of the first field of the oneof in Fields, as
    ExitOneofField (field.go:349-359) appends to both. *)
Fixpoint resolve_fields (u : list bytes) (seen : list nat) (oo : list bytes) (l : list pfd) : option (list rfield) :=
  match l with
  | [] => Some []
  | f :: r =>
      match add_underscores (fun n => used u n || used u (Getter n)) (rounds u) (GoCamelCase (pf_name f)) with
      | None => None
      | Some n =>
          let u := n :: Getter n :: u in
          match pf_one f with
          | Some o =>
              if existsb (Nat.eqb o) seen then
                match resolve_fields u seen oo r with
                | Some l' => Some (mkRF n None :: l')
                | None => None
                end
              else
                match add_underscores (used u) (rounds u) (GoCamelCase (nth o oo [])) with
                | None => None
                | Some g =>
                    match resolve_fields (g :: u) (o :: seen) oo r with
                    | Some l' => Some (mkRF n (Some (o, g)) :: l')
                    | None => None
                    end
                end
          | None =>
              match resolve_fields u seen oo r with
              | Some l' => Some (mkRF n None :: l')
              | None => None
              end
          end
      end
  end.
Definition resolveFieldConflicts (m : pmsg) : option (list rfield) :=
  resolve_fields reserved_names [] (pm_oneofs m) (pm_fields m).

(** OneofStructName, field.go:264-269 *)
Definition OneofStructName (msg field suffix : bytes) : bytes := msg ++ bs "_" ++ field ++ suffix.

(** resolveOneofTypeConflicts, message.go:150-166, for one field: the wrapper's name.
    [nested] are the GoNames of the nested messages and enums. *)
Definition wrapper_name (nested : list bytes) (msg field : bytes) : option bytes :=
  add_underscores (used nested) (rounds nested) (OneofStructName msg field []).

Fixpoint wrapper_names (nested : list bytes) (msg : bytes) (l : list pfd) (names : list rfield) : option (list bytes) :=
  match l, names with
  | f :: r, n :: ns =>
      match pf_one f with
      | None => wrapper_names nested msg r ns
      | Some _ =>
          match wrapper_name nested msg (rf_go n) with
          | None => None
          | Some w => match wrapper_names nested msg r ns with Some ws => Some (w :: ws) | None => None end
          end
      end
  | _, _ => Some []
  end.

(** ** Field and method names of the generated struct, code.go:182-278 *)

(** Struct fields: one per field outside a oneof, one per oneof, code.go:186-214. *)
Fixpoint struct_names (l : list pfd) (names : list rfield) : list bytes :=
  match l, names with
  | f :: r, n :: ns =>
      match pf_one f, rf_oneof n with
      | None, _ => rf_go n :: struct_names r ns
      | Some _, Some (_, g) => g :: struct_names r ns
      | Some _, None => struct_names r ns
      end
  | _, _ => []
  end.
(** Getters, code.go:230-265 *)
Fixpoint getter_names (names : list rfield) : list bytes :=
  match names with
  | [] => []
  | n :: ns =>
      match rf_oneof n with Some (_, g) => [Getter g] | None => [] end ++
      Getter (rf_go n) :: getter_names ns
  end.
(** What GoCodeGen is asked to generate, code.go:37-45 *)
Record gencfg := mkG { g_getter : bool; g_kitex : bool }.
Definition selectors (g : gencfg) (c : pctx) (m : pmsg) (names : list rfield) : list bytes :=
  struct_names (pm_fields m) names ++
  (if genUnknownFields c then [bs "unknownFields"] else []) ++
  [bs "Reset"] ++
  (if g_kitex g then [bs "Marshal"; bs "Unmarshal"] else []) ++
  (if g_getter g then getter_names names else []) ++
  (match pm_oneofs m with [] => [] | _ => [bs "XXX_OneofWrappers"] end).

(** ** Which declarations are emitted *)

(** Nested declarations of a message: the names of its enums, and its messages. *)
Inductive mtree := MT (name : bytes) (enums : list bytes) (msgs : list mtree).

(** A generated type: the path of its name *)
Inductive gdecl := GEnum (path : list bytes) | GMsg (path : list bytes).

(** MessageGen, code.go:182-291: itself, then the nested messages. *)
Fixpoint msg_gen (path : list bytes) (m : mtree) : list gdecl :=
  match m with
  | MT n _ ms => GMsg (path ++ [n]) :: concat (map (msg_gen (path ++ [n])) ms)
  end.
(** ProtoGen, code.go:112-131 *)
Definition ProtoGen (enums : list bytes) (msgs : list mtree) : list gdecl :=
  map (fun e => GEnum [e]) enums ++
  concat (map (fun m => match m with MT n es _ => map (fun e => GEnum [n; e]) es end) msgs) ++
  concat (map (msg_gen []) msgs).
