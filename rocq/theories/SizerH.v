(** internal/prutal/sizer.go again, on values in memory: the functions of Sizer.v following
    pointers, slices and maps in the heap. *)
From Verif Require Import Base Wire Coder MapTables Value WireVal Desc Encoder Sizer Heap EncoderH.
Open Scope N_scope.

Section SizerH.
Variable E : env.
Variable h : heap.

Definition leafsz (g : val -> res N) : hv -> res N := fun x => g (view h x).

Section Rec.
Variable rec : nat -> option hv -> res N.

Definition size_elemH (t : gotype) (x : hv) : res N :=
  do (id, base) <- struct_elemH h t x; do sz <- rec id base; Ok (SizeBytes sz).

(** sizeListField, sizer.go:115-170 *)
Definition sizeListFieldH (f : fdesc) (t : gotype) (x : hv) : res N :=
  match t with
  | TSlice vt =>
      do l <- elemsH h x;
      if Nat.eqb (length l) 0 then Ok 0
      else if f_packed f then
        do content <- sum_res (leafsz (opt_sz (sizeFuncs (fieldCoder f)))) l;
        Ok (WireTagSize f + SizeBytes content)
      else
        match sizeFuncs (fieldCoder f) with
        | Some g => sum_res (fun y => do n <- leafsz g y; Ok (WireTagSize f + n)) l
        | None => sum_res (fun y => do n <- size_elemH vt y; Ok (WireTagSize f + n)) l
        end
  | _ => Panic
  end.

(** sizer.go:198-220,229-237,246-254,261-269 *)
Definition size_map_loopH (f : fdesc) (keysz valsz : hv -> res N) (m : list (hv * hv)) : res N :=
  sum_res (fun kv => do k <- keysz (fst kv); do v <- valsz (snd kv);
                     Ok (WireTagSize f + SizeBytes (1 + k + 1 + v))) m.

(** sizer.go:192-222 *)
Definition sizeMapGenericH (f : fdesc) (x : hv) : res N :=
  match f_T f with
  | TMap kt vt =>
      do m <- entriesH h x;
      size_map_loopH f (leafsz (opt_sz (sizeFuncs (keyCoder f))))
        (match sizeFuncs (valCoder f) with Some g => leafsz g | None => size_elemH vt end) m
  | _ => Panic
  end.

(** sizeMapField, sizer.go:172-223 *)
Definition sizeMapFieldH (f : fdesc) (x : hv) : res N :=
  match f_T f with
  | TMap kt vt =>
      match getSizeMapFunc f with
      | Some row => SizeMap row (view h x) (WireTagSize f)
      | None =>
          match sizeFuncs (valCoder f), IsPointer vt with
          | None, true =>
              match kindOf kt with
              | RScalar (Int64 | Uint64) =>
                  do m <- entriesH h x; size_map_loopH f (leafsz (num_sz (sizeKeyU64 (f_ktag f)))) (size_elemH vt) m
              | RScalar Int32 =>
                  do m <- entriesH h x; size_map_loopH f (leafsz (num_sz (fun k => sizeKeyU32 (f_ktag f) k true))) (size_elemH vt) m
              | RScalar Uint32 =>
                  do m <- entriesH h x; size_map_loopH f (leafsz (num_sz (fun k => sizeKeyU32 (f_ktag f) k false))) (size_elemH vt) m
              | RString =>
                  do m <- entriesH h x; size_map_loopH f (leafsz (fun k => do s <- as_bytes k; Ok (SizeBytes (blen s)))) (size_elemH vt) m
              | _ => sizeMapGenericH f x
              end
          | _, _ => sizeMapGenericH f x
          end
      end
  | _ => Panic
  end.

(** The body of the field loop, sizer.go:36-107 *)
Definition size_fieldH (f : fdesc) (slot : hv) : res N :=
  do data <- oneof_dataH h f slot;
  match data with
  | None => Ok 0
  | Some v =>
      let t := f_T f in
      do skip <- skipzeroH E h t v;
      if skip then Ok 0
      else
        do (t, p) <- derefH h t v;
        match f_rep f, sizeFuncs (fieldCoder f) with
        | false, Some g => do x <- mustH p; do n <- leafsz g x; Ok (WireTagSize f + n)
        | _, _ =>
            if IsList f then do x <- mustH p; sizeListFieldH f t x
            else if IsMap f then do x <- mustH p; sizeMapFieldH f x
            else
              match t with
              | TStruct id => do sz <- rec id p; Ok (WireTagSize f + SizeBytes sz)
              | _ => Panic
              end
        end
  end.

Definition size_fieldsH (fs : list fdesc) (slots : list hv) : res N :=
  sum_res (fun f => match nth_error slots (f_slot f) with
                    | Some slot => size_fieldH f slot
                    | None => Panic
                    end) fs.
End Rec.

(** SizeStruct, sizer.go:28-113 *)
Fixpoint SizeStructH (d : nat) (id : nat) (base : option hv) : res N :=
  match d with
  | O => Err EMaxDepth
  | S d' =>
      let s := E id in
      match match base with Some x => x | None => embed (sd_zero s) end with
      | HStruct slots unk =>
          do n <- size_fieldsH (fun id base => SizeStructH d' id base) (sd_fields s) slots;
          Ok (if sd_unknown s then n + sizeUnknownFields unk else n)
      | _ => Panic
      end
  end.

(** prutal.Size of a pointer to a struct, internal/prutal/prutal.go:50-71 *)
Definition SizeH (a : argH) : res N :=
  match a_ptr a with
  | None => Ok 0
  | Some p => SizeStructH defaultRecursionMaxDepth (a_id a) (Some (load h p))
  end.
End SizerH.
