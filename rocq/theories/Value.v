(** Go types and Go values of message structs.

    Simplifications (see DESIGN.md): values are trees (no aliasing, no cycles);
    nil and empty slices other than []byte are not distinguished; struct padding is
    zero; the two representations of unknown-field storage ([]byte and *[]byte)
    share one field of [VStruct] ([None] = nil). *)
From Verif Require Import Base.
Open Scope N_scope.

(** Scalar reflect.Kinds that can carry a protobuf scalar. *)
Inductive skind := Int32 | Uint32 | Int64 | Uint64 | Bool | Float32 | Float64.

(** reflect.Kind as far as internal/desc looks at it; KindBytes is
    internal/desc/type.go:28. *)
Inductive rkind :=
| RScalar (k : skind) | RString | RBytes | RStruct | RMap | RSlice | RPtr | RIface | ROther.

(** reflect.Type.  [TStruct id] refers to an environment of structs. *)
Inductive gotype :=
| TScalar (k : skind)
| TString
| TBytes
| TStruct (id : nat)
| TPtr (t : gotype)
| TSlice (t : gotype)
| TMap (k v : gotype)
| TIface (alts : list (nat * gotype))   (* oneof interface: its wrappers and their field types *)
| TOther.              (* any other kind: int, chan, array, ... *)

(** reflectTypeKind, internal/desc/type.go:32-37 *)
Definition kindOf (t : gotype) : rkind :=
  match t with
  | TScalar k => RScalar k
  | TString => RString
  | TBytes => RBytes
  | TStruct _ => RStruct
  | TPtr _ => RPtr
  | TSlice _ => RSlice
  | TMap _ _ => RMap
  | TIface _ => RIface
  | TOther => ROther
  end.

(** Type.RealKind, internal/desc/type.go:70-75 *)
Fixpoint RealKind (t : gotype) : rkind :=
  match t with
  | TPtr t' | TSlice t' => RealKind t'
  | _ => kindOf t
  end.

Definition skind_size (k : skind) : N :=
  match k with
  | Int32 | Uint32 | Float32 => 4
  | Int64 | Uint64 | Float64 => 8
  | Bool => 1
  end.

(** Go values.  Numbers are raw bits.  [VUninit] is memory obtained from an allocator
    that does not clear it and not written since. *)
Inductive val :=
| VUninit
| VNum (n : N)
| VStr (s : bytes)
| VBytes (s : option bytes)
| VPtr (p : option val)
| VSlice (elems spare : list val)          (* spare: elements between len and cap *)
| VMap (m : option (list (val * val)))     (* entries in iteration order; None = nil *)
| VStruct (slots : list val) (unknown : option bytes)
| VIface (i : option (nat * option val)).  (* dynamic type (oneof wrapper) and, unless the
                                              wrapper pointer is nil, its only field *)

(** Is the memory of a value of at most 8 bytes all zero?  Used only for values whose
    static size is 8, 4 or 1 (internal/prutal/encoder.go:72-77). *)
Fixpoint raw_zero (v : val) : bool :=
  match v with
  | VUninit => false
  | VNum n => n =? 0
  | VStr s => match s with [] => true | _ => false end
  | VBytes s => match s with None => true | _ => false end
  | VPtr p => match p with None => true | _ => false end
  | VSlice e s => match e, s with [], [] => true | _, _ => false end
  | VMap m => match m with None => true | _ => false end
  | VStruct l u => forallb raw_zero l && match u with None => true | _ => false end
  | VIface i => match i with None => true | _ => false end
  end.

(** Len of the slice or string header at p *)
Definition slice_len (v : val) : option nat :=
  match v with
  | VStr s => Some (length s)
  | VBytes s => Some (match s with None => O | Some s => length s end)
  | VSlice e _ => Some (length e)
  | _ => None
  end.

(** Equality of Go map keys (integers, bool, string). *)
Definition bytes_eqb (a b : bytes) : bool :=
  (fix go (a b : bytes) : bool :=
     match a, b with
     | [], [] => true
     | x :: a, y :: b => (b2n x =? b2n y) && go a b
     | _, _ => false
     end) a b.
Definition key_eqb (a b : val) : bool :=
  match a, b with
  | VNum x, VNum y => x =? y
  | VStr x, VStr y => bytes_eqb x y
  | _, _ => false
  end.

(** m[k] = v on a Go map *)
Fixpoint map_set (m : list (val * val)) (k v : val) : list (val * val) :=
  match m with
  | [] => [(k, v)]
  | (k', v') :: r => if key_eqb k' k then (k', v) :: r else (k', v') :: map_set r k v
  end.
