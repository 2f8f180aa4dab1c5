(** Well-typed memory, and messages nested in each other in memory. *)
From Verif Require Import Base Value Desc MsgSpec Heap.
Open Scope nat_scope.

(** The type of an object: an array of [t], or a map. *)
Inductive oty := AArr (t : gotype) | AMap (k v : gotype).

Section Typed.
Variable E : env.
Variable h : heap.
Variable Psi : nat -> option oty.      (* the types of the objects in use *)

Fixpoint path_ty (t : gotype) (path : list nat) : option gotype :=
  match path with
  | [] => Some t
  | i :: r => match t with
              | TStruct id => match nth_error (sd_slots (E id)) i with Some t' => path_ty t' r | None => None end
              | _ => None
              end
  end.
(** [p] points to a variable of type [t]: an element of an array, or a field inside. *)
Definition points (p : loc) (t : gotype) : Prop :=
  exists t0, Psi (l_obj p) = Some (AArr t0) /\ l_idx p < length (cells (h (l_obj p))) /\ path_ty t0 (l_path p) = Some t.

Fixpoint hwt (t : gotype) (x : hv) {struct x} : Prop :=
  match x with
  | HUninit => False
  | HNum n => match t with TScalar k => num_ok k n | TOther => True | _ => False end
  | HStr _ => t = TString
  | HBytes _ => t = TBytes
  | HPtr p => match t with
              | TPtr t' => match p with Some p => points p t' | None => True end
              | _ => False
              end
  | HSlice a o l c => match t with
                      | TSlice t' => l <= c /\ (c = 0 \/ Psi a = Some (AArr t') /\ o + c <= length (cells (h a)))
                      | _ => False
                      end
  | HMap m => match t with
              | TMap kt vt => match m with Some a => Psi a = Some (AMap kt vt) | None => True end
              | _ => False
              end
  | HStruct slots unk =>
      match t with
      | TStruct id =>
          (fix go ts l {struct l} :=
             match l, ts with
             | [], [] => True
             | x :: r, t' :: ts' => hwt t' x /\ go ts' r
             | _, _ => False
             end) (sd_slots (E id)) slots /\
          match unk with Some _ => sd_unknown (E id) = true | None => True end
      | _ => False
      end
  | HIface i =>
      match t with
      | TIface alts => match i with
                       | None => True
                       | Some (w, p) => match lookup_alt w alts with
                                        | Some t' => match p with Some p => points p t' | None => True end
                                        | None => False
                                        end
                       end
      | _ => False
      end
  end.

(** Every object is what its type says; the keys of a map are scalars or strings, and differ. *)
Definition heap_ok : Prop := forall a ty, Psi a = Some ty ->
  match ty with
  | AArr t => exists l, h a = OArr l /\ Forall (hwt t) l
  | AMap k v => exists m, h a = OMap m /\ match k with TScalar _ | TString => True | _ => False end /\
                  Forall (fun kv => hwt k (fst kv) /\ hwt v (snd kv)) m /\ NoDup (map fst m)
  end.

(** As in MsgSpec.v, following references in the heap. *)
Inductive helem_msg : gotype -> hv -> nat -> option hv -> Prop :=
| hem_val id x : helem_msg (TStruct id) x id (Some x)
| hem_ptr id p : helem_msg (TPtr (TStruct id)) (HPtr p) id (option_map (load h) p).
Inductive hholds (f : fdesc) : hv -> nat -> option hv -> Prop :=
| hh_val id x : f_T f = TStruct id -> omitted E (TStruct id) (view h x) = false -> hholds f x id (Some x)
| hh_ptr id p : f_T f = TPtr (TStruct id) -> hholds f (HPtr (Some p)) id (Some (load h p))
| hh_list t a o l c x id p : f_T f = TSlice t -> In x (elems h a o l) -> helem_msg t x id p -> hholds f (HSlice a o l c) id p
| hh_map kt t a k x id p : f_T f = TMap kt t -> In (k, x) (entries (h a)) -> helem_msg t x id p -> hholds f (HMap (Some a)) id p.
(** The message of type [id] at [p] directly contains the message of type [id'] at [p']. *)
Definition hsubmsg (id : nat) (p : option hv) (id' : nat) (p' : option hv) : Prop :=
  exists slots unk f slot x,
    match p with Some x => x | None => embed (sd_zero (E id)) end = HStruct slots unk /\
    In f (sd_fields (E id)) /\ nth_error slots (f_slot f) = Some slot /\
    match f_oneof f with None => x = slot | Some w => exists q, slot = HIface (Some (w, Some q)) /\ x = load h q end /\
    hholds f x id' p'.
Inductive hnested : nat -> nat -> option hv -> Prop :=
| hnest_one id p : hnested 1 id p
| hnest_in n id p id' p' : hsubmsg id p id' p' -> hnested n id' p' -> hnested (S n) id p.
(** ... contains it directly or indirectly, or is it *)
Inductive hreach : nat -> option hv -> nat -> option hv -> Prop :=
| hr_here id p : hreach id p id p
| hr_in id p id1 p1 id2 p2 : hsubmsg id p id1 p1 -> hreach id1 p1 id2 p2 -> hreach id p id2 p2.
End Typed.
