(** What it means that a message in memory is a tree.

    [parts h x F]: [F] lists the memory objects behind the content [x] of a location: every
    variable a pointer or oneof refers to, every array and every map, and the ones behind
    those.  An array is listed with everything in it, also between the length and the capacity
    of the slice, because that is where an append through the slice writes.  An object that is
    reached in two ways is listed twice; so if no object is listed twice, no two parts of the
    message share memory. *)
From Verif Require Import Base Value HMem OwnSpec.
Open Scope nat_scope.

(** The array of a slice, if it has one *)
Definition array_of (n : nat) (s : slice) : list nat := if Nat.eqb n 0 then [] else [s_arr s].

Section Parts.
Variable h : mem.

Definition unknown_parts (u : option slice) : list nat :=
  match u with Some s => array_of (s_cap s) s | None => [] end.
Definition sized (u : option slice) : Prop := match u with Some s => s_len s <= s_cap s | None => True end.

Inductive parts : mv -> list nat -> Prop :=
| parts_uninit : parts MUninit []
| parts_num : forall n, parts (MNum n) []
| parts_str : forall s, parts (MStr s) (array_of (s_len s) s)
| parts_bytes : forall s, sized s -> parts (MBytes s) (unknown_parts s)
| parts_noptr : parts (MPtr None) []
| parts_ptr : forall o x F, objs h o = OCells [x] -> parts x F -> parts (MPtr (Some (cell o))) (o :: F)
| parts_noslice : forall s, s_len s = 0 -> s_cap s = 0 -> parts (MSlice s) []
| parts_slice : forall s xs ys F, 0 < s_cap s -> has_cells h s xs ys -> parts_all (xs ++ ys) F ->
    parts (MSlice s) (s_arr s :: F)
| parts_nomap : parts (MMap None) []
| parts_map : forall o ents F, objs h o = OMap ents -> parts_entries ents F -> parts (MMap (Some o)) (o :: F)
| parts_struct : forall xs u F, parts_all xs F -> sized u -> parts (MStruct xs u) (F ++ unknown_parts u)
| parts_noiface : parts (MIface None) []
| parts_niliface : forall w, parts (MIface (Some (w, None))) []
| parts_iface : forall w o x F, objs h o = OCells [x] -> parts x F -> parts (MIface (Some (w, Some (cell o)))) (o :: F)
with parts_all : list mv -> list nat -> Prop :=
| parts_nil : parts_all [] []
| parts_cons : forall x xs F1 F2, parts x F1 -> parts_all xs F2 -> parts_all (x :: xs) (F1 ++ F2)
with parts_entries : list (mv * mv) -> list nat -> Prop :=
| parts_enil : parts_entries [] []
| parts_econs : forall k x r F1 F2 F3, parts k F1 -> parts x F2 -> parts_entries r F3 ->
    parts_entries ((k, x) :: r) (F1 ++ F2 ++ F3).
End Parts.

(** The location [L] holds a tree made of the objects [F]: all allocated, none twice, none of
    them the object the location itself lies in. *)
Definition tree_at (h : mem) (L : loc) (F : list nat) : Prop :=
  l_obj L < next h /\ NoDup F /\ (forall o, In o F -> o < next h /\ o <> l_obj L) /\
  exists x, hload h L = Some x /\ parts h x F.

(** ** Parts of a message *)
(** One step from a content to a part of it: a struct field, a list element (also in the spare
    capacity), the key or value of a map entry, or what a pointer or oneof refers to *)
Inductive step := SField (i : nat) | SElem (i : nat) | SKey (i : nat) | SVal (i : nat) | STarget.
Definition part (h : mem) (x : mv) (st : step) : option mv :=
  match x, st with
  | MStruct xs _, SField i => nth_error xs i
  | MSlice s, SElem i => if i <? s_cap s then nth_error (cells_of h (s_arr s)) (s_off s + i) else None
  | MMap (Some o), SKey i => option_map fst (nth_error (map_of h o) i)
  | MMap (Some o), SVal i => option_map snd (nth_error (map_of h o) i)
  | MPtr (Some L), STarget | MIface (Some (_, Some L)), STarget => hload h L
  | _, _ => None
  end.
Fixpoint part_at (h : mem) (x : mv) (p : list step) : option mv :=
  match p with
  | [] => Some x
  | st :: r => match part h x st with Some y => part_at h y r | None => None end
  end.
(** Neither of two paths continues the other *)
Fixpoint fork (p q : list step) : Prop :=
  match p, q with
  | a :: p', b :: q' => a <> b \/ a = b /\ fork p' q'
  | _, _ => False
  end.
