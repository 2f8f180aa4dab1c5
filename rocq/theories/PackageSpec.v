(** What the type names in a generated Go file mean: the specification of a Go package whose type names are
    declared once. *)
From Coq Require Import List Arith ZArith Strings.String Init.Byte.
From Verif Require Import Base Value Desc GoStr GenField GenNames GenEnum GenGetter GenImport Scope Listen Compile CompileSpec GenText TextSpec CompileText CompileTextSpec.
Import ListNotations StringSyntax.
Open Scope nat_scope.

Section Package.
Variable F : nat -> state.
Variable imports : nat -> list (bool * nat).
Variable fuel : nat.
Variable E : extras.
Variable go_import : nat -> bytes.
(** Files whose types can be named in the Go file of [p]: those of the same Go package, and those that are imported *)
Definition visible (p q : nat) : Prop := go_import q = go_import p \/ In q (map snd (imports p)).
(** How: by the last part of the import path, if it is another package *)
Definition qualifier (p q : nat) (b : option bytes) : Prop :=
  (go_import q = go_import p /\ b = None) \/ (go_import q <> go_import p /\ b = Some (path_Base (go_import q))).
(** The enums that the Go file of [q] declares: those of the file and of the messages at its top (C59) *)
Definition declared_enum (q j : nat) : Prop :=
  In j (p_enums (F q)) \/ exists i m, In i (p_msgs (F q)) /\ nth_error (l_msgs (F q)) i = Some m /\ In j (mr_enums m).
(** The type of a name, without or with a package in front, in the Go file of [p] *)
Inductive means (p : nat) : option bytes -> bytes -> gotype -> Prop :=
| means_message q i b n : visible p q -> qualifier p q b -> go_named F (OMsg q i) n -> means p b n (TStruct (id_of q i))
| means_enum q j b n : visible p q -> qualifier p q b -> declared_enum q j -> go_named F (OEnum q j) n -> means p b n (TScalar Int32)
| means_oneof q enums msgs m x k : go_import q = go_import p -> file_text F imports fuel E go_import q = Some (enums, msgs) ->
    In m msgs -> In x (infos (snd m)) -> k < length (pm_oneofs (mi_msg x)) ->
    means p None (oneof_type_name x k) (oneof_type (mi_ctx x) (mi_msg x) k).
(** [sc] is the scope of the Go file of [p]: each name has its meaning, and the names without one are not
    declared.  There is one if no name has two meanings: Go rejects the package otherwise. *)
Definition go_scope (p : nat) (sc : option bytes -> bytes -> option gotype) : Prop := forall b n t, sc b n = Some t <-> means p b n t.
(** An enum that the Go file of [q] declares, with its values *)
Definition written_enum (q : nat) (t : etext) : Prop :=
  exists enums msgs, file_text F imports fuel E go_import q = Some (enums, msgs) /\ (In t enums \/ exists m, In m msgs /\ In t (fst m)).
(** What a name stands for in an expression of the Go file of [p]: a struct type or a constant *)
Inductive stands (p : nat) : option bytes -> bytes -> entity -> Prop :=
| stands_type q i b n : visible p q -> qualifier p q b -> go_named F (OMsg q i) n -> stands p b n (EType (id_of q i))
| stands_value q t v b : visible p q -> qualifier p q b -> written_enum q t -> In v (en_values (et_enum t)) ->
    stands p b (value_GoName (et_enum t) v) (EConst (ev_value v)).
Definition entity_of (es : scope) (b : option bytes) (n : bytes) : option entity :=
  match b with
  | None => sc_own es n
  | Some b => match sc_import es b with Some P => P n | None => None end
  end.
(** As [go_scope], for expressions *)
Definition expr_scope (p : nat) (es : scope) : Prop := forall b n y, entity_of es b n = Some y <-> stands p b n y.
(** No file is imported publicly, and no message that is in a message has an enum in it (C64, C59) *)
Definition no_public : Prop := forall p q, ~ In (true, q) (imports p).
Definition no_deep_enum : Prop := forall p i m, nth_error (l_msgs (F p)) i = Some m -> mr_parent m <> None -> mr_enums m = [].
End Package.
