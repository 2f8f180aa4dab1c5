(** What it means that memory holds a value, and which memory a message owns.

    [reads h A x v]: the content [x] of a location denotes the Go value [v], and everything
    it refers to, directly or not, is in the objects of [A].  Objects may be shared freely.

    [owns h A W x v]: the same, where the objects of [W] are the ones that belong to the
    location itself: the map of each map field, the array behind each slice field and the
    array of unknown bytes, of the struct and of structs embedded by value.  Everything
    behind a pointer, a string, a []byte, a list element or a map entry is in [A] and only
    read. *)
From Verif Require Import Base Value HMem.
Open Scope nat_scope.

(** The bytes of a string or []byte exist and are in an object of [A]. *)
Definition in_bytes (h : mem) (A : nat -> Prop) (s : slice) : Prop :=
  s_len s = 0 \/ A (s_arr s) /\ s_off s + s_len s <= length (bytes_of h (s_arr s)).
(** The cells of a slice up to its length, and from there to its capacity *)
Definition has_cells (h : mem) (s : slice) (xs ys : list mv) : Prop :=
  exists pre post, cells_of h (s_arr s) = pre ++ xs ++ ys ++ post /\
    length pre = s_off s /\ length xs = s_len s /\ length xs + length ys = s_cap s.

Section Reads.
Variable h : mem.
Variable A : nat -> Prop.

Inductive reads_unknown : option slice -> option bytes -> Prop :=
| reads_unk0 : reads_unknown None None
| reads_unk : forall u, in_bytes h A u -> reads_unknown (Some u) (Some (rd h u)).

Inductive reads : mv -> val -> Prop :=
| reads_uninit : reads MUninit VUninit
| reads_num : forall n, reads (MNum n) (VNum n)
| reads_str : forall s, in_bytes h A s -> reads (MStr s) (VStr (rd h s))
| reads_nobytes : reads (MBytes None) (VBytes None)
| reads_bytes : forall s, in_bytes h A s -> reads (MBytes (Some s)) (VBytes (Some (rd h s)))
| reads_noptr : reads (MPtr None) (VPtr None)
| reads_ptr : forall L x v, A (l_obj L) -> hload h L = Some x -> reads x v -> reads (MPtr (Some L)) (VPtr (Some v))
| reads_noslice : forall s, s_len s = 0 -> s_cap s = 0 -> reads (MSlice s) (VSlice [] [])
| reads_slice : forall s xs ys es sp, 0 < s_cap s -> A (s_arr s) -> has_cells h s xs ys ->
    reads_all xs es -> reads_all ys sp -> reads (MSlice s) (VSlice es sp)
| reads_nomap : reads (MMap None) (VMap None)
| reads_map : forall o ents m, A o -> objs h o = OMap ents -> reads_entries ents m -> reads (MMap (Some o)) (VMap (Some m))
| reads_struct : forall xs vs u ub, reads_all xs vs -> reads_unknown u ub -> reads (MStruct xs u) (VStruct vs ub)
| reads_noiface : reads (MIface None) (VIface None)
| reads_iface0 : forall w, reads (MIface (Some (w, None))) (VIface (Some (w, None)))
| reads_iface : forall w L x v, A (l_obj L) -> hload h L = Some x -> reads x v ->
    reads (MIface (Some (w, Some L))) (VIface (Some (w, Some v)))
with reads_all : list mv -> list val -> Prop :=
| reads_nil : reads_all [] []
| reads_cons : forall x v xs vs, reads x v -> reads_all xs vs -> reads_all (x :: xs) (v :: vs)
with reads_entries : list (mv * mv) -> list (val * val) -> Prop :=
| reads_nil2 : reads_entries [] []
| reads_cons2 : forall k k' x v xs vs, reads k k' -> reads x v -> reads_entries xs vs ->
    reads_entries ((k, x) :: xs) ((k', v) :: vs).

(** Contents that hold nothing of their own *)
Definition leaf (x : mv) : Prop :=
  match x with MSlice _ | MMap _ | MStruct _ _ => False | _ => True end.

(** Unknown bytes: the array belongs to the message if it has room *)
Inductive owns_unknown : list nat -> option slice -> option bytes -> Prop :=
| owns_unk0 : owns_unknown [] None None
| owns_unk1 : forall u, s_len u = 0 -> s_cap u = 0 -> owns_unknown [] (Some u) (Some [])
| owns_unk : forall u, 0 < s_cap u -> s_len u <= s_cap u -> s_off u + s_cap u <= length (bytes_of h (s_arr u)) ->
    owns_unknown [s_arr u] (Some u) (Some (rd h u)).

Inductive owns : list nat -> mv -> val -> Prop :=
| owns_leaf : forall x v, leaf x -> reads x v -> owns [] x v
| owns_noslice : forall s, s_len s = 0 -> s_cap s = 0 -> owns [] (MSlice s) (VSlice [] [])
| owns_slice : forall s xs ys es sp W, 0 < s_cap s -> has_cells h s xs ys ->
    reads_all xs es -> owns_all W ys sp -> owns (s_arr s :: W) (MSlice s) (VSlice es sp)
| owns_nomap : owns [] (MMap None) (VMap None)
| owns_map : forall o ents m, objs h o = OMap ents -> reads_entries ents m -> owns [o] (MMap (Some o)) (VMap (Some m))
| owns_struct : forall xs vs u ub W1 W2, owns_all W1 xs vs -> owns_unknown W2 u ub ->
    owns (W1 ++ W2) (MStruct xs u) (VStruct vs ub)
with owns_all : list nat -> list mv -> list val -> Prop :=
| owns_nil : owns_all [] [] []
| owns_cons : forall x v xs vs W1 W2, owns W1 x v -> owns_all W2 xs vs -> owns_all (W1 ++ W2) (x :: xs) (v :: vs).
End Reads.

Scheme reads_mind := Minimality for reads Sort Prop
with reads_all_mind := Minimality for reads_all Sort Prop
with reads_entries_mind := Minimality for reads_entries Sort Prop.
Combined Scheme reads_mutind from reads_mind, reads_all_mind, reads_entries_mind.
Scheme owns_mind := Minimality for owns Sort Prop
with owns_all_mind := Minimality for owns_all Sort Prop.
Combined Scheme owns_mutind from owns_mind, owns_all_mind.
