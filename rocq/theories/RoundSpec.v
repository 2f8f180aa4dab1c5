(** Specification of "the same protobuf message" for two Go values, used for the round trip.
    It shares with the model only the vocabulary of schemas, Go types and values. *)
From Verif Require Import Base WireSpec Value Desc MsgSpec DecSpec.
From Coq Require Import Sorting.Permutation.
Open Scope N_scope.

(** Stored unknown bytes are complete records of undeclared fields (groups nested at most
    10001 deep), as Unmarshal leaves them. *)
Definition unknown_ok (E : env) (id : nat) (bs : bytes) : Prop :=
  exists rs, wire_records bs rs /\
    Forall (fun r => known E id r = false /\
                     exists d, payload (w_num r) (w_typ r) (w_data r) d /\ N.of_nat d <= 10001) rs.
(** A Go value of struct type [id], with such unknown bytes throughout. *)
Definition message (E : env) (id : nat) (v : val) : Prop := wtg E (unknown_ok E) false (TStruct id) v.

(** A oneof member that Marshal leaves out: zero scalar, empty string or bytes, nil. *)
Definition dropped (E : env) (f : fdesc) (x : val) : bool :=
  match f_T f, x with
  | TPtr _, VPtr None => true
  | TPtr _, _ => false
  | t, _ => omitted E t x
  end.
(** The oneof variable holds a member of wrapper type [w]. *)
Definition holds (w : nat) (slot : val) : Prop := exists o, slot = VIface (Some (w, o)).

(** [same_value E t v v']: equal as protobuf values, [v] before and [v'] after a round trip.
    The only differences allowed: nil and empty bytes, lists and maps; nil list elements and
    map values become empty messages; spare capacity; oneof members that are [dropped]. *)
Inductive same_value (E : env) : gotype -> val -> val -> Prop :=
| sv_num k n : same_value E (TScalar k) (VNum n) (VNum n)
| sv_str s : same_value E TString (VStr s) (VStr s)
| sv_bytes o o' : unk_bytes o = unk_bytes o' -> same_value E TBytes (VBytes o) (VBytes o')
| sv_struct id s u s' u' : unk_bytes u = unk_bytes u' ->
    (forall f, In f (sd_fields (E id)) -> exists slot slot',
       nth_error s (f_slot f) = Some slot /\ nth_error s' (f_slot f) = Some slot' /\ same_field E f slot slot') ->
    same_value E (TStruct id) (VStruct s u) (VStruct s' u')
| sv_ptr id x x' : same_value E (TStruct id) x x' ->
    same_value E (TPtr (TStruct id)) (VPtr (Some x)) (VPtr (Some x'))
| sv_nil id x' : same_value E (TStruct id) (sd_zero (E id)) x' ->
    same_value E (TPtr (TStruct id)) (VPtr None) (VPtr (Some x'))
(** The Go variable of a field. *)
with same_field (E : env) : fdesc -> val -> val -> Prop :=
| sf_plain f v v' : f_oneof f = None -> same_data E f v v' -> same_field E f v v'
| sf_member f w x x' : f_oneof f = Some w -> dropped E f x = false -> same_data E f x x' ->
    same_field E f (VIface (Some (w, Some x))) (VIface (Some (w, Some x')))
| sf_dropped f w x slot' : f_oneof f = Some w -> dropped E f x = true -> ~ holds w slot' ->
    same_field E f (VIface (Some (w, Some x))) slot'
| sf_nil f w slot' : f_oneof f = Some w -> ~ holds w slot' -> same_field E f (VIface (Some (w, None))) slot'
| sf_other f w slot slot' : f_oneof f = Some w -> ~ holds w slot -> ~ holds w slot' -> same_field E f slot slot'
(** Its content. *)
with same_data (E : env) : fdesc -> val -> val -> Prop :=
| sd_single f v v' : (forall t, f_T f <> TPtr t) -> same_value E (f_T f) v v' -> same_data E f v v'
| sd_unset f t : f_T f = TPtr t -> same_data E f (VPtr None) (VPtr None)
| sd_set f t x x' : f_T f = TPtr t -> same_value E t x x' -> same_data E f (VPtr (Some x)) (VPtr (Some x'))
| sd_list f t e e' sp sp' : f_T f = TSlice t -> Forall2 (same_value E t) e e' ->
    same_data E f (VSlice e sp) (VSlice e' sp')
| sd_map f kt vt m ent m' : f_T f = TMap kt vt -> Permutation (entries m) ent ->
    Forall2 (fun a b => fst a = fst b /\ same_value E vt (snd a) (snd b)) ent (entries m') ->
    same_data E f (VMap m) (VMap m').

(** [levels E n id p]: [n] levels of messages nested in each other, starting at [p], where
    a message in a map counts twice. *)
Inductive levels (E : env) : nat -> nat -> option val -> Prop :=
| lv_one id p : levels E 1 id p
| lv_in n id p slots unk f slot v id' p' :
    match p with Some v => v | None => sd_zero (E id) end = VStruct slots unk ->
    In f (sd_fields (E id)) -> nth_error slots (f_slot f) = Some slot ->
    match f_oneof f with None => v = slot | Some w => slot = VIface (Some (w, Some v)) end ->
    holds_msg E f v id' p' -> levels E n id' p' ->
    levels E (match f_T f with TMap _ _ => 2 | _ => 1 end + n) id p.

(** The Go variable of a field in a struct. *)
Definition slot_of (f : fdesc) (v : val) : option val :=
  match v with VStruct slots _ => nth_error slots (f_slot f) | _ => None end.
