(** What a getter of a message returns, following the protobuf guides for generated Go code:
    the value of the field if it is set and else the default value of the field. *)
From Coq Require Import Strings.String Init.Byte.
From Verif Require Import Base Value Desc GoStr GenField GenNames NameSpec GenSpec GenEnum GenImport GenGetter.
Import StringSyntax.
Open Scope N_scope.

(** The type of a getter: that of the field, but no pointers to scalars and enums. *)
Definition getter_type (f : pfd) (t r : gotype) : Prop :=
  match t with
  | TPtr e => match pf_ty f with PMsg _ => r = t | _ => r = e end
  | _ => r = t
  end.

(** The default value of a field: what the option default says (here for strings and bools only),
    else the first value of an enum, else zero.  A message field that is not a pointer, lists and
    maps are empty by default. *)
Definition singular_enum (f : pfd) : Prop := pf_kt f = None /\ pf_rep f = false /\ pf_ty f = PEnum.
Definition int32_bits (z : Z) : N := Z.to_N (z mod 2 ^ 32).
Inductive default_value (E : env) (f : pfd) (ti : tyinfo) (t : gotype) : val -> Prop :=
| dv_string s : given (pf_opts f) (bs "default") s -> t = TString -> default_value E f ti t (VStr s)
| dv_true : given (pf_opts f) (bs "default") (bs "true") -> t = TScalar Bool -> default_value E f ti t (VNum 1)
| dv_false : given (pf_opts f) (bs "default") (bs "false") -> t = TScalar Bool -> default_value E f ti t (VNum 0)
| dv_enum n z r : (forall s, ~ given (pf_opts f) (bs "default") s) -> singular_enum f -> ti_values ti = (n, z) :: r ->
    default_value E f ti t (VNum (int32_bits z))
| dv_zero : (forall s, ~ given (pf_opts f) (bs "default") s) -> ~ singular_enum f -> default_value E f ti t (zero_of E t).

(** The value of the field [f], the [i]-th of its message, if it is set.  [s] is the content of
    the struct field that holds it: the oneof's interface, a pointer, or the value. *)
Inductive set_value (f : pfd) (i : nat) : val -> val -> Prop :=
| sv_member o v : pf_one f = Some o -> set_value f i (VIface (Some (i, Some v))) v
| sv_pointer v : pf_one f = None -> (forall id, pf_ty f <> PMsg id) -> set_value f i (VPtr (Some v)) v
| sv_message id p : pf_one f = None -> pf_ty f = PMsg id -> set_value f i (VPtr p) (VPtr p)
| sv_plain s : pf_one f = None -> (forall p, s <> VPtr p) -> set_value f i s s.
(** It is not set: the oneof holds nothing or another member, the pointer is nil. *)
Inductive not_set (f : pfd) (i : nat) : val -> Prop :=
| ns_none o : pf_one f = Some o -> not_set f i (VIface None)
| ns_other o j p : pf_one f = Some o -> j <> i -> not_set f i (VIface (Some (j, p)))
| ns_nil : pf_one f = None -> (forall id, pf_ty f <> PMsg id) -> not_set f i (VPtr None).

(** The names of the enum constants and message types of the fields mean what they should: what
    the packages declare is as EnumGen and MessageGen do (C59, C62), other packages are imported
    under the last element of their paths (C64), which is an identifier. *)
Definition visible (sc : scope) (imp : option bytes) (n : bytes) : option entity :=
  match imp with
  | None => sc_own sc n
  | Some p => match sc_import sc (path_Base p) with Some P => P n | None => None end
  end.
Record type_known (sc : scope) (t : ptype) (ti : tyinfo) : Prop := {
  tk_enum : t = PEnum -> forall n z, In (n, z) (ti_values ti) -> exported n /\ visible sc (ti_import ti) n = Some (EConst z);
  tk_msg : forall id, t = PMsg id -> exported (ti_name ti) /\ visible sc (ti_import ti) (ti_name ti) = Some (EType id);
  tk_import : forall p, ti_import ti = Some p -> ident (path_Base p)
}.
