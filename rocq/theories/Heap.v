(** Go values in memory: pointers, slices and maps refer to objects of a heap, so that
    values may share memory, contain interior pointers and be cyclic.

    Simplified: strings and []byte carry their contents (they are only read here); a map is
    ranged over in one order during a call; nil and empty slices are not distinguished. *)
From Verif Require Import Base Value.
Open Scope nat_scope.

(** A location: an object, an index into it, and the struct fields selected inside. *)
Record loc := mkL { l_obj : nat; l_idx : nat; l_path : list nat }.

(** What a Go variable holds. *)
Inductive hv :=
| HUninit
| HNum (n : N)
| HStr (s : bytes)
| HBytes (s : option bytes)
| HPtr (p : option loc)
| HSlice (arr off len cap : nat)
| HMap (m : option nat)
| HStruct (slots : list hv) (unknown : option bytes)
| HIface (i : option (nat * option loc)).   (* oneof wrapper and the location of its field *)

(** An array (a variable is an array of one) or a map. *)
Inductive obj := OArr (l : list hv) | OMap (m : list (hv * hv)).
Definition heap := nat -> obj.

Definition cells (o : obj) : list hv := match o with OArr l => l | OMap _ => [] end.
Definition entries (o : obj) : list (hv * hv) := match o with OMap m => m | OArr _ => [] end.
Definition sub (x : hv) (i : nat) : hv :=
  match x with HStruct slots _ => nth i slots HUninit | _ => HUninit end.

Section Heap.
Variable h : heap.

(** *p *)
Definition load (p : loc) : hv := fold_left sub (l_path p) (nth (l_idx p) (cells (h (l_obj p))) HUninit).
(** s[0:len(s)] and s[len(s):cap(s)] *)
Definition elems (arr off len : nat) : list hv := firstn len (skipn off (cells (h arr))).
Definition spares (arr off len cap : nat) : list hv := firstn (cap - len) (skipn (off + len) (cells (h arr))).

(** The tree one sees from a variable when following at most [n] references in a row; what
    is further away is seen as nil or empty. *)
Fixpoint unroll (n : nat) : hv -> val :=
  fix go (x : hv) : val :=
    match x with
    | HUninit => VUninit
    | HNum k => VNum k
    | HStr s => VStr s
    | HBytes s => VBytes s
    | HPtr p => VPtr (match p, n with Some p, S n' => Some (unroll n' (load p)) | _, _ => None end)
    | HSlice a o l c =>
        match n with
        | O => VSlice [] []
        | S n' => VSlice (map (unroll n') (elems a o l)) (map (unroll n') (spares a o l c))
        end
    | HMap m =>
        VMap (match m, n with
              | Some a, S n' => Some (map (fun kv => (unroll n' (fst kv), unroll n' (snd kv))) (entries (h a)))
              | _, _ => None
              end)
    | HStruct slots u => VStruct (map go slots) u
    | HIface i =>
        VIface (match i with
                | None => None
                | Some (w, p) =>
                    Some (w, match p, n with Some p, S n' => Some (unroll n' (load p)) | _, _ => None end)
                end)
    end.
(** What a function sees that reads the variable and the array or map it refers to. *)
Definition view : hv -> val := unroll 1.
End Heap.

(** A value without references (the zero struct), as a variable. *)
Fixpoint embed (v : val) : hv :=
  match v with
  | VUninit => HUninit
  | VNum n => HNum n
  | VStr s => HStr s
  | VBytes s => HBytes s
  | VPtr _ => HPtr None
  | VSlice _ _ => HSlice 0 0 0 0
  | VMap _ => HMap None
  | VStruct l u => HStruct (map embed l) u
  | VIface _ => HIface None
  end.
