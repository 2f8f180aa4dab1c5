(** Specification of decoding, as the merge of a sequence of records into a Go value.

    It shares with the model only the vocabulary of schemas, Go types and values, and the
    wire grammar.  Two places describe choices of the code rather than of protobuf, and
    are marked QUIRK. *)
From Verif Require Import Base WireSpec Value Desc MsgSpec.
Open Scope N_scope.

(** The signed number with a given zigzag code. *)
Definition unzigzag (n : N) : Z :=
  if N.even n then Z.of_N (n / 2) else (- Z.of_N ((n + 1) / 2))%Z.

(** The raw bits stored for a varint of value [n].
    QUIRK: a bool is the lowest bit. *)
Definition varint_store (tag : tagtype) (k : skind) (n : N) : N :=
  match tag with
  | TagZigZag32 => u32_of (unzigzag n)
  | TagZigZag64 => u64_of (unzigzag n)
  | _ => match k with
         | Int32 | Uint32 => n mod 2^32
         | Bool => n mod 2
         | _ => n
         end
  end.

Definition tag_wtype (t : tagtype) : N :=
  match t with TagFixed64 => 1 | TagFixed32 => 5 | TagBytes => 2 | _ => 0 end.

(** [reads_scalar raw tag k typ p n]: the payload [p] of wire type [typ] holds the scalar
    with raw bits [n].
    QUIRK [raw]: in packed lists and in maps between scalars a bool is one byte, true
    unless zero. *)
Inductive reads_scalar (raw : bool) (tag : tagtype) (k : skind) : N -> bytes -> N -> Prop :=
| rd_varint p n : In tag [TagVarint; TagZigZag32; TagZigZag64] -> valid_varint p n ->
    raw = false \/ k <> Bool -> reads_scalar raw tag k 0 p (varint_store tag k n)
| rd_byte c : raw = true -> k = Bool -> reads_scalar raw tag k 0 [c] (if b2n c =? 0 then 0 else 1)
| rd_fixed32 p : tag = TagFixed32 -> length p = 4%nat -> reads_scalar raw tag k 5 p (le_value p)
| rd_fixed64 p : tag = TagFixed64 -> length p = 8%nat -> reads_scalar raw tag k 1 p (le_value p).

(** Memory that has not been written: unknown for the kinds allocated without clearing. *)
Definition unset (E : env) (t : gotype) : val := if noscan t then VUninit else zero_of E t.

(** The variable of the next element of a list with elements [e] and spare capacity [sp],
    and the spare capacity left: capacity 8 at first, doubled when full. *)
Definition next_elem (E : env) (t : gotype) (e sp : list val) : val * list val :=
  match sp with
  | x :: r => (x, r)
  | [] => (unset E t, repeat (unset E t) (match e with [] => 7%nat | _ => (length e - 1)%nat end))
  end.

(** QUIRK: which maps read bools as one byte. *)
Definition raw_bools (kt vt : gotype) (vtag : tagtype) : bool :=
  match kt, vt with
  | TScalar Bool, TScalar Int32 => negb (tag_eqb vtag TagVarint)
  | TScalar _, TScalar _ => true
  | _, _ => false
  end.

(** m[k] = v *)
Definition put_entry (m : option (list (val * val))) (k v : val) : list (val * val) :=
  map_set (match m with Some m => m | None => [] end) k v.

Section Decodes.
Variable E : env.

(** [reads D raw tag t typ p x x']: a payload [p] of wire type [typ], read into a variable
    of type [t] holding [x], leaves [x'] there.  [D] counts down nesting. *)
Inductive reads : Z -> bool -> tagtype -> gotype -> N -> bytes -> val -> val -> Prop :=
| r_scalar D raw tag k typ p x n : reads_scalar raw tag k typ p n ->
    reads D raw tag (TScalar k) typ p x (VNum n)
| r_string D raw tag l s x : valid_varint l (blen s) -> reads D raw tag TString 2 (l ++ s) x (VStr s)
| r_bytes D raw tag l s x : valid_varint l (blen s) -> reads D raw tag TBytes 2 (l ++ s) x (VBytes (Some s))
| r_struct D raw tag id l s x x' : valid_varint l (blen s) -> decodes (D - 1) id s x x' ->
    reads D raw tag (TStruct id) 2 (l ++ s) x x'
| r_ptr D raw tag t typ p x x' : reads D raw tag t typ p (unset E t) x' ->
    reads D raw tag (TPtr t) typ p x (VPtr (Some x'))

(** [merges D f typ p slot slot']: the effect of one record of field [f] on its Go
    variable. *)
with merges : Z -> fdesc -> N -> bytes -> val -> val -> Prop :=
| m_oneof D f w typ p slot x' : f_oneof f = Some w ->
    reads D false (f_tag f) (f_T f) typ p (unset E (f_T f)) x' ->
    merges D f typ p slot (VIface (Some (w, Some x')))
| m_single D f typ p slot slot' : f_oneof f = None -> f_rep f = false ->
    reads D false (f_tag f) (f_T f) typ p slot slot' -> merges D f typ p slot slot'
| m_packed D f k l ps ns slot : f_oneof f = None -> f_T f = TSlice (TScalar k) -> f_packed f = true ->
    valid_varint l (blen (concat ps)) ->
    Forall2 (reads_scalar true (f_tag f) k (tag_wtype (f_tag f))) ps ns ->
    merges D f 2 (l ++ concat ps) slot (VSlice (map VNum ns) [])
| m_elem D f t typ p e sp x r x' : f_oneof f = None -> f_T f = TSlice t -> (typ <> 2 \/ f_packed f = false) ->
    next_elem E t e sp = (x, r) -> reads D false (f_tag f) t typ p x x' ->
    merges D f typ p (VSlice e sp) (VSlice (e ++ [x']) r)
| m_entry D f kt vt l c1 t1 p1 c2 t2 p2 junk m k0 k v : f_oneof f = None -> f_T f = TMap kt vt ->
    let s := [c1] ++ p1 ++ [c2] ++ p2 ++ junk in
    valid_varint l (blen s) ->
    b2n c1 = 8 * 1 + t1 -> t1 < 8 -> b2n c2 = 8 * 2 + t2 -> t2 < 8 ->
    reads D (raw_bools kt vt (f_vtag f)) (f_ktag f) kt t1 p1 k0 k ->
    reads (D - 1) (raw_bools kt vt (f_vtag f)) (f_vtag f) vt t2 p2 (unset E vt) v ->
    merges D f 2 (l ++ s) (VMap m) (VMap (Some (put_entry m k v)))

(** [records D id b v v']: merging the records of [b] one after the other. *)
with records : Z -> nat -> bytes -> val -> val -> Prop :=
| rs_nil D id v : records D id [] v v
| rs_unknown D id num typ raw d b slots unk v' :
    is_record num typ raw d -> N.of_nat d <= 10001 ->
    (forall f, In f (sd_fields (E id)) -> field_num f <> num) ->
    records D id b (VStruct slots (if sd_unknown (E id)
       then Some (match unk with Some u => u ++ raw | None => raw end) else unk)) v' ->
    records D id (raw ++ b) (VStruct slots unk) v'
| rs_known D id f t typ p b slots unk slot slot' v' :
    In f (sd_fields (E id)) -> valid_varint t (8 * field_num f + typ) -> typ < 8 ->
    nth_error slots (f_slot f) = Some slot -> merges D f typ p slot slot' ->
    records D id b (VStruct (upd_nth (f_slot f) slot' slots) unk) v' ->
    records D id (t ++ p ++ b) (VStruct slots unk) v'

(** [decodes D id b v v']: a message of struct type [id] is decoded into [v].  Stored
    unknown fields are dropped first. *)
with decodes : Z -> nat -> bytes -> val -> val -> Prop :=
| dec_struct D id b slots unk v' : D <> 0%Z ->
    records D id b (VStruct slots (if sd_unknown (E id) then option_map (fun _ => []) unk else unk)) v' ->
    decodes D id b (VStruct slots unk) v'.
End Decodes.

(** ** The same, as a fold over the list of records of the input *)

(** A record on the wire. *)
Record wrec := mkW { w_num : N; w_typ : N; w_tag : bytes; w_data : bytes }.
Definition w_raw (r : wrec) : bytes := w_tag r ++ w_data r.
Definition wf_wrec (r : wrec) : Prop :=
  valid_varint (w_tag r) (8 * w_num r + w_typ r) /\ w_typ r < 8 /\ 1 <= w_num r < 2^31 /\
  exists d, payload (w_num r) (w_typ r) (w_data r) d.
(** [b] is the sequence of records [rs]. *)
Definition wire_records (b : bytes) (rs : list wrec) : Prop :=
  Forall wf_wrec rs /\ b = concat (map w_raw rs).

(** A record with the number of a declared field. *)
Definition known (E : env) (id : nat) (r : wrec) : bool :=
  existsb (fun f => field_num f =? w_num r) (sd_fields (E id)).

(** The effect of one record on a struct. *)
Inductive step (E : env) (D : Z) (id : nat) (r : wrec) : val -> val -> Prop :=
| st_unknown d slots unk : known E id r = false ->
    payload (w_num r) (w_typ r) (w_data r) d -> N.of_nat d <= 10001 ->
    step E D id r (VStruct slots unk) (VStruct slots (if sd_unknown (E id)
       then Some (match unk with Some u => u ++ w_raw r | None => w_raw r end) else unk))
| st_known f slots unk slot slot' : In f (sd_fields (E id)) -> field_num f = w_num r ->
    nth_error slots (f_slot f) = Some slot -> merges E D f (w_typ r) (w_data r) slot slot' ->
    step E D id r (VStruct slots unk) (VStruct (upd_nth (f_slot f) slot' slots) unk).

Inductive steps (E : env) (D : Z) (id : nat) : list wrec -> val -> val -> Prop :=
| steps_nil v : steps E D id [] v v
| steps_cons r rs v v1 v' : step E D id r v v1 -> steps E D id rs v1 v' -> steps E D id (r :: rs) v v'.

(** Stored unknown fields are dropped before decoding. *)
Definition drop_unknown (E : env) (id : nat) (v : val) : val :=
  match v with
  | VStruct slots unk => VStruct slots (if sd_unknown (E id) then option_map (fun _ => []) unk else unk)
  | _ => v
  end.

(** Record [r] belongs to the struct field [i]. *)
Definition touches (E : env) (id : nat) (r : wrec) (i : nat) : Prop :=
  exists f, In f (sd_fields (E id)) /\ field_num f = w_num r /\ f_slot f = i.
(** Records of field [f]. *)
Definition of_field (f : fdesc) (r : wrec) : bool := field_num f =? w_num r.

(** m[k] on a Go map (or a list of entries, first one wins) *)
Definition lookup (m : list (val * val)) (k : val) : option val :=
  option_map snd (find (fun e => key_eqb (fst e) k) m).
Definition entries (m : option (list (val * val))) : list (val * val) := match m with Some m => m | None => [] end.
(** The record holds the map entry [kv]: it turns a nil map into the map with just it. *)
Definition is_entry (E : env) (D : Z) (f : fdesc) (r : wrec) (kv : val * val) : Prop :=
  merges E D f (w_typ r) (w_data r) (VMap None) (VMap (Some [kv])).

(** Stored unknown fields; nil counts as empty. *)
Definition unk_bytes (o : option bytes) : bytes := match o with Some b => b | None => [] end.
(** A message stored by value. *)
Definition by_value (t : gotype) : bool := match t with TStruct _ => true | _ => false end.
Definition cap (v : val) : nat := match v with VSlice e sp => length e + length sp | _ => 0%nat end.
(** Records of different fields that are not members of one oneof, not both unknown. *)
Definition independent (E : env) (id : nat) (r1 r2 : wrec) : Prop :=
  (known E id r1 = true \/ known E id r2 = true) /\ (forall i, ~ (touches E id r1 i /\ touches E id r2 i)).

(** ** Nesting of messages in an input *)
Definition msg_type (t : gotype) : option nat :=
  match t with TStruct id | TPtr (TStruct id) => Some id | _ => None end.
(** [nests E maps n id b]: as an encoding of struct type [id], [b] contains [n] messages nested
    in each other (itself included), in fields and lists, and if [maps] also in map values. *)
Inductive nests (E : env) (maps : bool) : nat -> nat -> bytes -> Prop :=
| ns_one id b : nests E maps 1 id b
| ns_field n id b rs r f l s id' : wire_records b rs -> In r rs -> In f (sd_fields (E id)) -> field_num f = w_num r ->
    w_typ r = 2 -> w_data r = l ++ s -> valid_varint l (blen s) ->
    msg_type (f_T f) = Some id' \/ (exists t, f_T f = TSlice t /\ msg_type t = Some id') ->
    nests E maps n id' s -> nests E maps (S n) id b
| ns_map n id b rs r f l kt vt c1 p1 c2 l2 s2 junk id' : wire_records b rs -> In r rs -> In f (sd_fields (E id)) ->
    field_num f = w_num r -> w_typ r = 2 -> w_data r = l ++ (c1 :: p1 ++ c2 :: l2 ++ s2 ++ junk) ->
    valid_varint l (blen (c1 :: p1 ++ c2 :: l2 ++ s2 ++ junk)) ->
    payload 1 (b2n c1 - 8) p1 0 -> b2n c2 = 18 -> valid_varint l2 (blen s2) ->
    f_T f = TMap kt vt -> msg_type vt = Some id' -> maps = true -> nests E maps n id' s2 -> nests E maps (S n) id b.

(** ** A varint in every position it can have *)
(** [in_position E k p x f typ d slot slot']: the payload [d] (of wire type [typ]) of a
    record of field [f] contains the varint [p] for a scalar of kind [k]; storing [x] for it
    changes the Go variable of the field from [slot] to [slot']. *)
Inductive in_position (E : env) (k : skind) (p : bytes) (x : N) : fdesc -> N -> bytes -> val -> val -> Prop :=
| ip_single f slot : f_oneof f = None -> f_T f = TScalar k -> f_tag f = TagVarint ->
    in_position E k p x f 0 p slot (VNum x)
| ip_optional f slot : f_oneof f = None -> f_T f = TPtr (TScalar k) -> f_tag f = TagVarint ->
    in_position E k p x f 0 p slot (VPtr (Some (VNum x)))
| ip_oneof f w slot : f_oneof f = Some w -> f_T f = TScalar k -> f_tag f = TagVarint ->
    in_position E k p x f 0 p slot (VIface (Some (w, Some (VNum x))))
| ip_elem f e sp : f_T f = TSlice (TScalar k) -> f_tag f = TagVarint ->
    in_position E k p x f 0 p (VSlice e sp) (VSlice (e ++ [VNum x]) (snd (next_elem E (TScalar k) e sp)))
| ip_packed f l slot : f_T f = TSlice (TScalar k) -> f_packed f = true -> f_tag f = TagVarint ->
    valid_varint l (blen p) -> in_position E k p x f 2 (l ++ p) slot (VSlice [VNum x] [])
| ip_key f vt l c2 t2 p2 v m : f_T f = TMap (TScalar k) vt -> f_ktag f = TagVarint ->
    valid_varint l (blen ([n2b 8] ++ p ++ [c2] ++ p2)) -> b2n c2 = 8 * 2 + t2 -> t2 < 8 ->
    reads E 999 (raw_bools (TScalar k) vt (f_vtag f)) (f_vtag f) vt t2 p2 (unset E vt) v ->
    in_position E k p x f 2 (l ++ [n2b 8] ++ p ++ [c2] ++ p2) (VMap m) (VMap (Some (put_entry m (VNum x) v)))
| ip_value f kt l c1 t1 p1 key m : f_T f = TMap kt (TScalar k) -> f_vtag f = TagVarint ->
    valid_varint l (blen ([c1] ++ p1 ++ [n2b 16] ++ p)) -> b2n c1 = 8 * 1 + t1 -> t1 < 8 ->
    reads E 1000 (raw_bools kt (TScalar k) (f_vtag f)) (f_ktag f) kt t1 p1 VUninit key ->
    in_position E k p x f 2 (l ++ [c1] ++ p1 ++ [n2b 16] ++ p) (VMap m) (VMap (Some (put_entry m key (VNum x)))).
