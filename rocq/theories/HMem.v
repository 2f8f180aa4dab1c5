(** Memory of a Go program as Unmarshal sees it: objects with identity, slices that share
    arrays, pointers, and the stores that the decoder makes.

    An object is a byte array, an array of cells (a variable is an array of one cell) or a
    map.  A location is a cell, or a struct field inside one (a path of field indices).
    Simplifications: addresses are object numbers, so two objects never overlap (for span
    memory this is Span.v); memory is not reclaimed; there is no location inside a map
    entry (Go has none either); the unknown-field storage is a slice header kept in the
    struct, also when the struct declares it as a pointer to a slice. *)
From Verif Require Import Base Value.
Open Scope nat_scope.

(** internal/hack/hack.go SliceHeader / StringHeader; capacity counted from the offset *)
Record slice := mkSl { s_arr : nat; s_off : nat; s_len : nat; s_cap : nat }.

(** A location: object, index of the cell, struct fields to go down *)
Record loc := mkLoc { l_obj : nat; l_idx : nat; l_path : list nat }.

(** The content of a location: what is stored inline *)
Inductive mv :=
| MUninit
| MNum (n : N)
| MStr (s : slice)
| MBytes (s : option slice)
| MPtr (p : option loc)
| MSlice (s : slice)
| MMap (m : option nat)
| MStruct (slots : list mv) (unknown : option slice)
| MIface (i : option (nat * option loc)).

Inductive obj :=
| OBytes (b : bytes)
| OCells (l : list mv)
| OMap (m : list (mv * mv)).

Record mem := mkMem { next : nat; objs : nat -> obj }.

(** One object replaced *)
Definition set_obj (h : mem) (o : nat) (x : obj) : mem :=
  mkMem (next h) (fun o' => if Nat.eqb o' o then x else objs h o').

(** A new object *)
Definition halloc (h : mem) (x : obj) : mem * nat :=
  (mkMem (S (next h)) (fun o => if Nat.eqb o (next h) then x else objs h o), next h).

Definition bytes_of (h : mem) (o : nat) : bytes := match objs h o with OBytes b => b | _ => [] end.
Definition cells_of (h : mem) (o : nat) : list mv := match objs h o with OCells l => l | _ => [] end.

(** The bytes of a string, a []byte or the input *)
Definition rd (h : mem) (s : slice) : bytes := firstn (s_len s) (skipn (s_off s) (bytes_of h (s_arr s))).

(** s[k:k+n] and s[k:] *)
Definition sub (s : slice) (k n : nat) : slice := mkSl (s_arr s) (s_off s + k) n (s_cap s - k).
Definition nil_slice : slice := mkSl 0 0 0 0.

(** The variable held by an object of one cell *)
Definition cell (o : nat) : loc := mkLoc o 0 [].
(** &p.field i *)
Definition slot (L : loc) (i : nat) : loc := mkLoc (l_obj L) (l_idx L) (l_path L ++ [i]).
(** &s[i] *)
Definition elem (s : slice) (i : nat) : loc := mkLoc (s_arr s) (s_off s + i) [].

Fixpoint get_path (p : list nat) (x : mv) : option mv :=
  match p with
  | [] => Some x
  | i :: r =>
      match x with
      | MStruct slots _ => match nth_error slots i with Some y => get_path r y | None => None end
      | _ => None
      end
  end.
Fixpoint put_path (p : list nat) (y x : mv) : mv :=
  match p with
  | [] => y
  | i :: r =>
      match x with
      | MStruct slots u =>
          match nth_error slots i with
          | Some z => MStruct (upd_nth i (put_path r y z) slots) u
          | None => x
          end
      | _ => x
      end
  end.

(** *p and *p = x *)
Definition hload (h : mem) (L : loc) : option mv :=
  match nth_error (cells_of h (l_obj L)) (l_idx L) with
  | Some c => get_path (l_path L) c
  | None => None
  end.
Definition hstore (h : mem) (L : loc) (x : mv) : mem :=
  match nth_error (cells_of h (l_obj L)) (l_idx L) with
  | Some c => set_obj h (l_obj L) (OCells (upd_nth (l_idx L) (put_path (l_path L) x c) (cells_of h (l_obj L))))
  | None => h
  end.

(** The elements of a slice *)
Definition elems_of (h : mem) (s : slice) : list mv :=
  firstn (s_len s) (skipn (s_off s) (cells_of h (s_arr s))).

(** Write into a byte array *)
Definition write_bytes (h : mem) (o k : nat) (b : bytes) : mem :=
  let l := bytes_of h o in set_obj h o (OBytes (firstn k l ++ b ++ skipn (k + length b) l)).

(** Zero and uninitialised contents refer to nothing: the memory content with the shape of
    a value without references. *)
Fixpoint embed (v : val) : mv :=
  match v with
  | VUninit => MUninit
  | VNum n => MNum n
  | VStr _ => MStr nil_slice
  | VBytes _ => MBytes None
  | VPtr _ => MPtr None
  | VSlice _ _ => MSlice nil_slice
  | VMap _ => MMap None
  | VStruct l _ => MStruct (map embed l) None
  | VIface _ => MIface None
  end.

(** Equality of Go map keys: by content *)
Definition hkey_eqb (h : mem) (a b : mv) : bool :=
  match a, b with
  | MNum x, MNum y => N.eqb x y
  | MStr x, MStr y => bytes_eqb (rd h x) (rd h y)
  | _, _ => false
  end.
(** m[k] = v on the entries of a map *)
Fixpoint hmap_set (h : mem) (m : list (mv * mv)) (k v : mv) : list (mv * mv) :=
  match m with
  | [] => [(k, v)]
  | (k', v') :: r => if hkey_eqb h k' k then (k', v) :: r else (k', v') :: hmap_set h r k v
  end.
Definition map_of (h : mem) (o : nat) : list (mv * mv) := match objs h o with OMap m => m | _ => [] end.
