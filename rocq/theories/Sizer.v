(** Model of internal/prutal/sizer.go.  Go's int additions are exact here (a message
    bigger than 2^63 bytes does not exist). *)
From Verif Require Import Base Wire Coder MapTables Value WireVal Desc Encoder.
Open Scope N_scope.

Section Sizer.
Variable E : env.

Fixpoint sum_res {A} (f : A -> res N) (l : list A) : res N :=
  match l with
  | [] => Ok 0
  | a :: r => do x <- f a; do y <- sum_res f r; Ok (x + y)
  end.

Definition opt_sz (o : option (val -> res N)) : val -> res N :=
  match o with Some g => g | None => fun _ => Panic end.

(** sizeKeyU64 / sizeKeyU32, sizer.go:273-297 *)
Definition sizeKeyU64 (t : tagtype) (k : N) : N :=
  match t with
  | TagFixed64 => 8
  | TagZigZag64 => SizeVarint (zz64 k)
  | _ => SizeVarint k
  end.
Definition sizeKeyU32 (t : tagtype) (k : N) (signed : bool) : N :=
  match t with
  | TagFixed32 => 4
  | TagZigZag32 => SizeVarint (zz32 k)
  | _ => if signed then SizeVarint (sext32 k) else SizeVarint k
  end.

Section Rec.
(** SizeStruct(base, s, maxdepth-1) *)
Variable rec : nat -> option val -> res N.

Definition size_elem (t : gotype) (v : val) : res N :=
  do (id, base) <- struct_elem t v; do sz <- rec id base; Ok (SizeBytes sz).

(** sizeListField, sizer.go:115-170 *)
Definition sizeListField (f : fdesc) (t : gotype) (v : val) : res N :=
  match t with
  | TSlice vt =>
      do l <- as_elems v;
      if Nat.eqb (length l) 0 then Ok 0
      else if f_packed f then
        do content <- sum_res (opt_sz (sizeFuncs (fieldCoder f))) l;
        Ok (WireTagSize f + SizeBytes content)
      else
        match sizeFuncs (fieldCoder f) with
        | Some g => sum_res (fun x => do n <- g x; Ok (WireTagSize f + n)) l
        | None => sum_res (fun x => do n <- size_elem vt x; Ok (WireTagSize f + n)) l
        end
  | _ => Panic
  end.

(** The loops of sizeMapField and its variants, sizer.go:198-220,229-237,246-254,261-269 *)
Definition size_map_loop (f : fdesc) (keysz valsz : val -> res N) (m : list (val * val)) : res N :=
  sum_res (fun kv => do k <- keysz (fst kv); do v <- valsz (snd kv);
                     Ok (WireTagSize f + SizeBytes (1 + k + 1 + v))) m.

(** The reflective loop of sizeMapField, sizer.go:192-222 *)
Definition sizeMapGeneric (f : fdesc) (v : val) : res N :=
  match f_T f with
  | TMap kt vt =>
      do m <- as_entries v;
      size_map_loop f (opt_sz (sizeFuncs (keyCoder f)))
        (match sizeFuncs (valCoder f) with Some g => g | None => size_elem vt end) m
  | _ => Panic
  end.

(** sizeMapField, sizer.go:172-223 *)
Definition sizeMapField (f : fdesc) (v : val) : res N :=
  match f_T f with
  | TMap kt vt =>
      match getSizeMapFunc f with
      | Some row => SizeMap row v (WireTagSize f)
      | None =>
          match sizeFuncs (valCoder f), IsPointer vt with
          | None, true =>
              match kindOf kt with
              | RScalar (Int64 | Uint64) =>
                  do m <- as_entries v; size_map_loop f (num_sz (sizeKeyU64 (f_ktag f))) (size_elem vt) m
              | RScalar Int32 =>
                  do m <- as_entries v; size_map_loop f (num_sz (fun k => sizeKeyU32 (f_ktag f) k true)) (size_elem vt) m
              | RScalar Uint32 =>
                  do m <- as_entries v; size_map_loop f (num_sz (fun k => sizeKeyU32 (f_ktag f) k false)) (size_elem vt) m
              | RString =>
                  do m <- as_entries v; size_map_loop f (fun k => do s <- as_bytes k; Ok (SizeBytes (blen s))) (size_elem vt) m
              | _ => sizeMapGeneric f v
              end
          | _, _ => sizeMapGeneric f v
          end
      end
  | _ => Panic
  end.

(** The body of the field loop, sizer.go:36-107 *)
Definition size_field (f : fdesc) (slot : val) : res N :=
  do data <- oneof_data f slot;
  match data with
  | None => Ok 0
  | Some v =>
      let t := f_T f in
      do skip <- skipzero E t v;
      if skip then Ok 0
      else
        do (t, p) <- deref t v;
        match f_rep f, sizeFuncs (fieldCoder f) with
        | false, Some g => do x <- must p; do n <- g x; Ok (WireTagSize f + n)
        | _, _ =>
            if IsList f then do x <- must p; sizeListField f t x
            else if IsMap f then do x <- must p; sizeMapField f x
            else
              match t with
              | TStruct id => do sz <- rec id p; Ok (WireTagSize f + SizeBytes sz)
              | _ => Panic
              end
        end
  end.

Definition size_fields (fs : list fdesc) (slots : list val) : res N :=
  sum_res (fun f => match nth_error slots (f_slot f) with
                    | Some slot => size_field f slot
                    | None => Panic
                    end) fs.
End Rec.

(** sizeUnknownFields, sizer.go:299-312 *)
Definition sizeUnknownFields (u : option bytes) : N :=
  match u with Some x => blen x | None => 0 end.

(** SizeStruct, sizer.go:28-113 *)
Fixpoint SizeStruct (d : nat) (id : nat) (base : option val) : res N :=
  match d with
  | O => Err EMaxDepth
  | S d' =>
      let s := E id in
      match match base with Some v => v | None => sd_zero s end with
      | VStruct slots unk =>
          do n <- size_fields (fun id base => SizeStruct d' id base) (sd_fields s) slots;
          Ok (if sd_unknown s then n + sizeUnknownFields unk else n)
      | _ => Panic
      end
  end.

(** prutal.Size, internal/prutal/prutal.go:50-71 *)
Definition Size (a : arg) : res N :=
  match a with
  | ANil => Ok 0
  | AOther => Err ENotPointer
  | APtr id None => Ok 0
  | APtr id (Some v) => SizeStruct defaultRecursionMaxDepth id (Some v)
  end.
End Sizer.
