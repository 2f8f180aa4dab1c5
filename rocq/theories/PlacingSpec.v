(** Which object of a loaded file a definition in its text becomes. *)
From Coq Require Import List Arith ZArith Init.Byte.
From Verif Require Import Base Comments Verify Listen Placing.
Import ListNotations.
Open Scope nat_scope.

(** The name of an object, with its number if it is a field or a value *)
Definition object (st : state) (s : slot) : option (bytes * option Z) :=
  match s with
  | SMsg i => option_map (fun m => (mr_name m, None)) (nth_error (l_msgs st) i)
  | SField i k =>
      match nth_error (l_msgs st) i with
      | Some m => option_map (fun f => (fl_name f, Some (fl_num f))) (nth_error (mr_fields m) k)
      | None => None
      end
  | SEnum j => option_map (fun e => (er_name e, None)) (nth_error (l_enums st) j)
  | SValue j k =>
      match nth_error (l_enums st) j with
      | Some e => option_map (fun f => (ef_name f, Some (ef_value f))) (nth_error (er_fields e) k)
      | None => None
      end
  | SService i => option_map (fun v => (sv_name v, None)) (nth_error (p_services st) i)
  | SMethod i k =>
      match nth_error (p_services st) i with
      | Some v => option_map (fun m => (me_name m, None)) (nth_error (sv_methods v) k)
      | None => None
      end
  end.
(** The name in a definition *)
Definition written (e : event) : option (bytes * option Z) :=
  match e with
  | EnterMessageDef _ n | EnterEnumDef _ n | EnterServiceDef n | EnterRpc n => Some (n, None)
  | ExitEnumField n neg lit _ => Some (n, option_map (fun v => if neg then (- v)%Z else v) (UnmarshalI32 lit))
  | ExitField _ _ f | ExitOneofField f | ExitMapField _ f => Some (sf_name f, UnmarshalI32 (sf_num f))
  | _ => None
  end.
(** The objects of one kind, in the same message, enum or service, are numbered as they are written. *)
Definition follows (a b : slot) : Prop :=
  match a, b with
  | SMsg i, SMsg j | SEnum i, SEnum j | SService i, SService j => i < j
  | SField i k, SField j l | SValue i k, SValue j l | SMethod i k, SMethod j l => i = j -> k < l
  | _, _ => True
  end.
(** The messages that are open behind some calls: a message is opened by its start and closed by its end.
    [n]: how many messages have started *)
Fixpoint opened_messages (n : nat) (open : list nat) (evs : list event) : list nat :=
  match evs with
  | [] => open
  | EnterMessageDef _ _ :: r => opened_messages (S n) (n :: open) r
  | ExitMessageDef :: r => opened_messages n (tl open) r
  | _ :: r => opened_messages n open r
  end.
Definition started (b : event -> bool) (evs : list event) : nat := length (filter b evs).
Definition is_enum (e : event) : bool := match e with EnterEnumDef _ _ => true | _ => false end.
Definition is_service (e : event) : bool := match e with EnterServiceDef _ => true | _ => false end.
(** A field belongs to the innermost open message, a value to the last enum, a method to the last service.
    [evs]: the calls before *)
Definition belongs (evs : list event) (s : slot) : Prop :=
  match s with
  | SField i _ => exists r, opened_messages 0 [] evs = i :: r
  | SValue j _ => started is_enum evs = S j
  | SMethod i _ => started is_service evs = S i
  | _ => True
  end.
(** The kind of object that a definition becomes *)
Definition becomes (e : event) (s : slot) : Prop :=
  match e, s with
  | EnterMessageDef _ _, SMsg _ | EnterEnumDef _ _, SEnum _ | ExitEnumField _ _ _ _, SValue _ _
  | ExitField _ _ _, SField _ _ | ExitOneofField _, SField _ _ | ExitMapField _ _, SField _ _
  | EnterServiceDef _, SService _ | EnterRpc _, SMethod _ _ => True
  | _, _ => False
  end.
