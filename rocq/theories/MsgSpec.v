(** Specification of messages: which schemas are generated by protoc-gen-go/prutalgen,
    which Go values inhabit them, which protobuf message a Go value denotes, and the
    canonical encoding of a protobuf message.

    It shares with the model only the vocabulary of schemas (Desc.fdesc, Desc.sdesc),
    Go types and Go values (Value.v), and the wire grammar (WireSpec). *)
From Verif Require Import Base WireSpec Value Desc.
From Coq Require Import Sorting.Sorted.
Open Scope N_scope.

(** ** Protobuf messages, independent of Go *)
Inductive pval :=
| QInt (n : N)                                  (* VARINT *)
| Q32 (n : N)                                   (* I32 *)
| Q64 (n : N)                                   (* I64 *)
| QStr (s : bytes)                              (* LEN: string or bytes *)
| QPacked (l : list pval)                       (* LEN: packed scalars *)
| QMsg (fs : list (N * pval)) (unknown : bytes) (* LEN: message or map entry *).

Definition wtype (p : pval) : N :=
  match p with QInt _ => 0 | Q64 _ => 1 | Q32 _ => 5 | _ => 2 end.

(** Canonical encoding: minimal varints, fields in the given order, unknown bytes last. *)
Fixpoint payload_of (p : pval) : bytes :=
  match p with
  | QInt n => varint n
  | Q32 n => le_bytes 4 n
  | Q64 n => le_bytes 8 n
  | QStr s => lendelim s
  | QPacked l => lendelim (concat (map payload_of l))
  | QMsg fs u =>
      lendelim (concat (map (fun '(num, p) => tag num (wtype p) ++ payload_of p) fs) ++ u)
  end.
Definition record_of (r : N * pval) : bytes := tag (fst r) (wtype (snd r)) ++ payload_of (snd r).
Definition wire_fields (fs : list (N * pval)) : bytes := concat (map record_of fs).
(** Encoding of a top-level message. *)
Definition wire (p : pval) : bytes :=
  match p with QMsg fs u => wire_fields fs ++ u | _ => [] end.

(** ** Schemas *)

(** Protobuf scalar types as (encoding, Go kind) pairs. *)
Definition scalar_ok (t : tagtype) (k : skind) : bool :=
  match t, k with
  | TagVarint, (Int32 | Uint32 | Int64 | Uint64 | Bool) => true
  | TagZigZag32, Int32 => true
  | TagZigZag64, Int64 => true
  | TagFixed32, (Int32 | Uint32 | Float32) => true
  | TagFixed64, (Int64 | Uint64 | Float64) => true
  | _, _ => false
  end.
Definition is_float (k : skind) : bool := match k with Float32 | Float64 => true | _ => false end.

(** A single value: scalar, string, bytes or (value) message. *)
Definition value_ok (tag : tagtype) (t : gotype) : bool :=
  match t with
  | TScalar k => scalar_ok tag k
  | TString | TBytes | TStruct _ => tag_eqb tag TagBytes
  | _ => false
  end.
(** Element of a list or value of a map: also a message pointer. *)
Definition elem_ok (tag : tagtype) (t : gotype) : bool :=
  match t with
  | TPtr (TStruct _) => tag_eqb tag TagBytes
  | _ => value_ok tag t
  end.
Definition key_ok (tag : tagtype) (t : gotype) : bool :=
  match t with
  | TScalar k => scalar_ok tag k && negb (is_float k)
  | TString => tag_eqb tag TagBytes
  | _ => false
  end.

(** Field types of generated code. *)
Definition supported (f : fdesc) : bool :=
  match f_T f with
  | TMap k v =>
      f_rep f && negb (f_packed f) && match f_oneof f with None => true | _ => false end &&
      tag_eqb (f_tag f) TagBytes && key_ok (f_ktag f) k && elem_ok (f_vtag f) v
  | TSlice t =>
      f_rep f && match f_oneof f with None => true | _ => false end && elem_ok (f_tag f) t &&
      (negb (f_packed f) || match t with TScalar _ => true | _ => false end)
  | TPtr t => negb (f_rep f) && negb (f_packed f) && value_ok (f_tag f) t
  | t => negb (f_rep f) && negb (f_packed f) && value_ok (f_tag f) t
  end.

Fixpoint lookup_alt (w : nat) (alts : list (nat * gotype)) : option gotype :=
  match alts with
  | [] => None
  | (w', t) :: r => if Nat.eqb w' w then Some t else lookup_alt w r
  end.

Definition wf_field (s : sdesc) (f : fdesc) : Prop :=
  (1 <= f_id f < 2^31)%Z /\ supported f = true /\
  match f_oneof f with
  | None => nth_error (sd_slots s) (f_slot f) = Some (f_T f)
  | Some w => exists alts, nth_error (sd_slots s) (f_slot f) = Some (TIface alts) /\
                           lookup_alt w alts = Some (f_T f)
  end.

Record wf_sdesc (E : env) (s : sdesc) : Prop := {
  wf_sorted : StronglySorted (fun f g => f_id f < f_id g)%Z (sd_fields s);
  wf_fields : forall f, In f (sd_fields s) -> wf_field s f;
  (** distinct fields live in distinct struct fields, unless they are alternatives of
      one oneof *)
  wf_slots : forall f g, In f (sd_fields s) -> In g (sd_fields s) -> f_slot f = f_slot g ->
    f = g \/ exists w w', f_oneof f = Some w /\ f_oneof g = Some w' /\ w <> w';
  wf_zero : sd_zero s = VStruct (map (zero_of E) (sd_slots s)) None
}.
Definition wf_env (E : env) : Prop := forall id, wf_sdesc E (E id).

(** ** Go values of a type *)
Section Typing.
Variable E : env.
(** Condition on stored unknown bytes, by struct. *)
Variable Q : nat -> bytes -> Prop.

Definition num_ok (k : skind) (n : N) : Prop :=
  n < 2 ^ (8 * skind_size k) /\ (k = Bool -> n < 2).

(** [wtg u t v]: [v] is a value of type [t]; with [u] memory of the kinds that are
    allocated without clearing may be uninitialised.  The spare capacity of a slice of
    such a kind may always be. *)
Fixpoint wtg (u : bool) (t : gotype) (v : val) {struct v} : Prop :=
  match v with
  | VUninit => u = true /\ noscan t = true
  | VNum n => match t with TScalar k => num_ok k n | TOther => True | _ => False end
  | VStr _ => t = TString
  | VBytes _ => t = TBytes
  | VPtr p =>
      match t with
      | TPtr t' => match p with Some x => wtg u t' x | None => True end
      | _ => False
      end
  | VSlice e sp =>
      match t with
      | TSlice t' =>
          (fix go l := match l with [] => True | x :: r => wtg u t' x /\ go r end) e /\
          (fix go l := match l with [] => True | x :: r => wtg (u || noscan t') t' x /\ go r end) sp
      | _ => False
      end
  | VMap m =>
      match t with
      | TMap kt vt =>
          match m with
          | Some m =>
              (fix go l := match l with
                           | [] => True
                           | (k, x) :: r => (wtg u kt k /\ wtg u vt x) /\ go r
                           end) m /\
              NoDup (map fst m)
          | None => True
          end
      | _ => False
      end
  | VStruct slots unk =>
      match t with
      | TStruct id =>
          (fix go ts l {struct l} :=
             match l, ts with
             | [], [] => True
             | x :: r, t' :: ts' => wtg u t' x /\ go ts' r
             | _, _ => False
             end) (sd_slots (E id)) slots /\
          match unk with
          | Some bs => sd_unknown (E id) = true /\ Q id bs
          | None => True
          end
      | _ => False
      end
  | VIface i =>
      match t with
      | TIface alts =>
          match i with
          | Some (w, o) =>
              match lookup_alt w alts with
              | Some t' => match o with Some x => wtg u t' x | None => True end
              | None => False
              end
          | None => True
          end
      | _ => False
      end
  end.
End Typing.

(** A Go value of type [t], fully initialised. *)
Definition wt (E : env) (t : gotype) (v : val) : Prop := wtg E (fun _ _ => True) false t v.
(** A pointer to a struct: nil or a value. *)
Definition wtp (E : env) (id : nat) (p : option val) : Prop :=
  match p with Some v => wt E (TStruct id) v | None => True end.

(** ** The protobuf message denoted by a Go value *)

Definition scalar_den (tag : tagtype) (k : skind) (n : N) : pval :=
  match tag with
  | TagZigZag32 => QInt (zigzag (int32_of n))
  | TagZigZag64 => QInt (zigzag (int64_of n))
  | TagFixed32 => Q32 n
  | TagFixed64 => Q64 n
  | _ => match k with Int32 => QInt (u64_of (int32_of n)) | _ => QInt n end
  end.

(** Singular fields without explicit presence are omitted when zero/empty.  (A message
    stored by value is omitted when it is all zero and its size is 8, 4 or 1.) *)
Definition omitted (E : env) (t : gotype) (v : val) : bool :=
  match t, v with
  | TScalar _, VNum n => n =? 0
  | TString, VStr s => match s with [] => true | _ => false end
  | TBytes, VBytes o => match o with Some (_ :: _) => false | _ => true end
  | TStruct id, _ => (let sz := sd_size (E id) in (sz =? 8) || (sz =? 4) || (sz =? 1)) && raw_zero v
  | _, _ => false
  end.

Fixpoint omap {A B} (f : A -> option B) (l : list A) : option (list B) :=
  match l with
  | [] => Some []
  | a :: r => match f a, omap f r with Some b, Some rb => Some (b :: rb) | _, _ => None end
  end.

Definition field_num (f : fdesc) : N := Z.to_N (f_id f).

Section Denotation.
Variable E : env.

Section Rec.
(** Messages in fields and lists; messages in maps. *)
Variables rec recm : nat -> option val -> option pval.

Definition value_den (rec : nat -> option val -> option pval) (tag : tagtype) (t : gotype) (v : val) : option pval :=
  match t, v with
  | TScalar k, VNum n => Some (scalar_den tag k n)
  | TString, VStr s => Some (QStr s)
  | TBytes, VBytes o => Some (QStr (match o with Some s => s | None => [] end))
  | TStruct id, _ => rec id (Some v)
  | TPtr (TStruct id), VPtr p => rec id p        (* a nil message is an empty message *)
  | _, _ => None
  end.

Definition entry_den (f : fdesc) (kt vt : gotype) (kv : val * val) : option pval :=
  match value_den rec (f_ktag f) kt (fst kv), value_den recm (f_vtag f) vt (snd kv) with
  | Some k, Some v => Some (QMsg [(1, k); (2, v)] [])
  | _, _ => None
  end.

(** The records of one field whose Go variable holds [v]. *)
Definition data_den (f : fdesc) (v : val) : option (list (N * pval)) :=
  let num := field_num f in
  match f_T f, v with
  | TMap kt vt, VMap m =>
      option_map (map (fun p => (num, p)))
        (omap (entry_den f kt vt) (match m with Some m => m | None => [] end))
  | TSlice t, VSlice e _ =>
      match omap (value_den rec (f_tag f) t) e with
      | Some l => Some (if f_packed f then match l with [] => [] | _ => [(num, QPacked l)] end
                        else map (fun p => (num, p)) l)
      | None => None
      end
  | TPtr _, VPtr None => Some []
  | TPtr t, VPtr (Some x) => option_map (fun p => [(num, p)]) (value_den rec (f_tag f) t x)
  | t, _ => if omitted E t v then Some []
            else option_map (fun p => [(num, p)]) (value_den rec (f_tag f) t v)
  end.

(** A oneof member is in the message only if its wrapper is the one stored. *)
Definition field_den (f : fdesc) (slot : val) : option (list (N * pval)) :=
  match f_oneof f with
  | None => data_den f slot
  | Some w =>
      match slot with
      | VIface (Some (w', Some x)) => if Nat.eqb w' w then data_den f x else Some []
      | _ => Some []
      end
  end.

Definition fields_den (fs : list fdesc) (slots : list val) : option (list (N * pval)) :=
  option_map (@concat _)
    (omap (fun f => match nth_error slots (f_slot f) with
                    | Some slot => field_den f slot
                    | None => None
                    end) fs).
End Rec.

(** [msg two d id p]: the message of struct type [id] at [p] (nil counts as a zero
    struct); [None] if it nests deeper than [d].  A nested message costs one level; with
    [two], messages inside maps cost two. *)
Fixpoint msg (two : bool) (d : nat) (id : nat) (p : option val) : option pval :=
  match d with
  | O => None
  | S d' =>
      match match p with Some v => v | None => sd_zero (E id) end with
      | VStruct slots unk =>
          let recm := if two then match d' with S d'' => msg two d'' | O => fun _ _ => None end
                      else msg two d' in
          option_map (fun fs => QMsg fs (match unk with Some u => u | None => [] end))
            (fields_den (msg two d') recm (sd_fields (E id)) slots)
      | _ => None
      end
  end.
End Denotation.

(** ** The same Go value seen through different map iteration orders *)
From Coq Require Import Sorting.Permutation.
Inductive vsame : val -> val -> Prop :=
| same_refl v : vsame v v
| same_ptr x x' : vsame x x' -> vsame (VPtr (Some x)) (VPtr (Some x'))
| same_slice e e' sp sp' : Forall2 vsame e e' -> Forall2 vsame sp sp' -> vsame (VSlice e sp) (VSlice e' sp')
| same_map m m1 m' : Permutation m m1 ->
    Forall2 (fun a b => fst a = fst b /\ vsame (snd a) (snd b)) m1 m' ->
    vsame (VMap (Some m)) (VMap (Some m'))
| same_struct l l' u : Forall2 vsame l l' -> vsame (VStruct l u) (VStruct l' u)
| same_iface w x x' : vsame x x' -> vsame (VIface (Some (w, Some x))) (VIface (Some (w, Some x'))).

(** The same message up to the order of records with the same field number. *)
Inductive pequiv : pval -> pval -> Prop :=
| pe_refl p : pequiv p p
| pe_msg fs fs1 fs' u : Permutation fs fs1 ->
    Forall2 (fun a b => fst a = fst b /\ pequiv (snd a) (snd b)) fs1 fs' ->
    map fst fs = map fst fs' -> pequiv (QMsg fs u) (QMsg fs' u).

(** ** Nesting of messages in a Go value *)
(** An element of a list or map value that is a message. *)
Inductive elem_msg : gotype -> val -> nat -> option val -> Prop :=
| em_val id v : elem_msg (TStruct id) v id (Some v)
| em_ptr id p : elem_msg (TPtr (TStruct id)) (VPtr p) id p.
(** The variable of field [f] holds a message of struct type [id] at [p]. *)
Inductive holds_msg (E : env) (f : fdesc) : val -> nat -> option val -> Prop :=
| hm_val id v : f_T f = TStruct id -> omitted E (TStruct id) v = false -> holds_msg E f v id (Some v)
| hm_ptr id x : f_T f = TPtr (TStruct id) -> holds_msg E f (VPtr (Some x)) id (Some x)
| hm_list t e sp x id p : f_T f = TSlice t -> In x e -> elem_msg t x id p -> holds_msg E f (VSlice e sp) id p
| hm_map kt t m k x id p : f_T f = TMap kt t -> In (k, x) m -> elem_msg t x id p ->
    holds_msg E f (VMap (Some m)) id p.
(** The message of type [id] at [p] directly contains a message of type [id'] at [p']. *)
Definition submsg (E : env) (id : nat) (p : option val) (id' : nat) (p' : option val) : Prop :=
  exists slots unk f slot v,
    match p with Some v => v | None => sd_zero (E id) end = VStruct slots unk /\
    In f (sd_fields (E id)) /\ nth_error slots (f_slot f) = Some slot /\
    match f_oneof f with None => v = slot | Some w => slot = VIface (Some (w, Some v)) end /\
    holds_msg E f v id' p'.
(** There are [n] messages nested in each other, starting at [p]. *)
Inductive nested (E : env) : nat -> nat -> option val -> Prop :=
| nest_one id p : nested E 1 id p
| nest_in n id p id' p' : submsg E id p id' p' -> nested E n id' p' -> nested E (S n) id p.
