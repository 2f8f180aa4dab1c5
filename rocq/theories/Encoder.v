(** Model of internal/prutal/encoder.go.

    Simplifications: when an error is returned the partially extended buffer is not
    modelled; e.tmp (a scratch copy of the map key, written and read back at once) is
    replaced by the key itself; the sync.Pool of encoders holds nothing else. *)
From Verif Require Import Base Wire Coder MapTables Value WireVal Desc.
Open Scope N_scope.

Section Encoder.
Variable E : env.

(** Oneof test, encoder.go:58-67.  [Ok None]: the field is skipped. *)
Definition oneof_data (f : fdesc) (slot : val) : res (option val) :=
  match f_oneof f with
  | None => Ok (Some slot)
  | Some w =>
      match slot with
      | VIface None => Ok None
      | VIface (Some (_, None)) => Ok None
      | VIface (Some (w', Some x)) => Ok (if Nat.eqb w' w then Some x else None)
      | _ => Panic
      end
  end.

(** encoder.go:70-80 *)
Definition skipzero (t : gotype) (v : val) : res bool :=
  let sz := tsize E t in
  if (sz =? 8) || (sz =? 4) || (sz =? 1) then Ok (raw_zero v)
  else if SliceLike t then
    match slice_len v with Some n => Ok (Nat.eqb n 0) | None => Panic end
  else Ok false.

(** encoder.go:85-88: the type and the location after the dereference.  The location is
    [None] for a nil pointer. *)
Definition deref (t : gotype) (v : val) : res (gotype * option val) :=
  match t with
  | TPtr t' => match v with VPtr p => Ok (t', p) | _ => Panic end
  | _ => Ok (t, Some v)
  end.

(** Reading through a nil pointer panics. *)
Definition must (p : option val) : res val := match p with Some v => Ok v | None => Panic end.

(** What AppendListField and AppendMapField pass to AppendStruct: struct id and base,
    encoder.go:161-167,176-179,235-239 *)
Definition struct_elem (t : gotype) (v : val) : res (nat * option val) :=
  match t with
  | TStruct id => Ok (id, Some v)
  | TPtr (TStruct id) => match v with VPtr p => Ok (id, p) | _ => Panic end
  | _ => Panic
  end.

Section Rec.
(** e.AppendStruct(b, base, s, true, maxdepth-1) *)
Variable rec : nat -> bytes -> option val -> res bytes.

(** AppendListField, encoder.go:157-186 *)
Fixpoint append_struct_elems (t : gotype) (tag : N) (b : bytes) (l : list val) : res bytes :=
  match l with
  | [] => Ok b
  | v :: r =>
      do (id, base) <- struct_elem t v;
      do b1 <- rec id (AppendVarintSmall b tag) base;
      append_struct_elems t tag b1 r
  end.
Definition AppendListField (f : fdesc) (b : bytes) (v : val) : res bytes :=
  match f_T f with
  | TSlice vt => do l <- as_elems v; append_struct_elems vt (WireTag f) b l
  | _ => Panic
  end.

(** One map record: encoder.go:221-245 and the loop bodies of the three unsafe
    variants, 253-271, 278-296, 304-321. *)
Definition append_map_entry (f : fdesc) (keyfn valfn : AppendFunc) (b : bytes) (k v : val) : res bytes :=
  let b0 := LenReserve (AppendVarintSmall b (WireTag f)) in
  do b1 <- keyfn (AppendKeyTag b0 (wireTypes (f_ktag f))) k;
  do b2 <- valfn (AppendValTag b1 (wireTypes (f_vtag f))) v;
  Ok (LenPack b2 (length b2 - length b0)).
Fixpoint append_map_loop (f : fdesc) (keyfn valfn : AppendFunc) (b : bytes) (m : list (val * val)) : res bytes :=
  match m with
  | [] => Ok b
  | (k, v) :: r => do b1 <- append_map_entry f keyfn valfn b k v; append_map_loop f keyfn valfn b1 r
  end.
Definition opt_fn (o : option AppendFunc) : AppendFunc :=
  match o with Some g => g | None => fun _ _ => Panic end.

(** The value of an entry that is a message, encoder.go:232-240 *)
Definition append_struct_value (vt : gotype) : AppendFunc :=
  fun b v => do (id, base) <- struct_elem vt v; rec id b base.

(** The reflective loop of AppendMapField, encoder.go:215-248 *)
Definition AppendMapGeneric (f : fdesc) (b : bytes) (v : val) : res bytes :=
  match f_T f with
  | TMap kt vt =>
      do m <- as_entries v;
      append_map_loop f (opt_fn (GetAppendFunc (keyCoder f) false))
        (match GetAppendFunc (valCoder f) false with Some g => g | None => append_struct_value vt end) b m
  | _ => Panic
  end.

(** AppendMapField, encoder.go:191-249, and its variants 251-324 *)
Definition AppendMapField (f : fdesc) (b : bytes) (v : val) : res bytes :=
  match f_T f with
  | TMap kt vt =>
      let KeyAppendFunc := GetAppendFunc (keyCoder f) false in
      let ValAppendFunc := GetAppendFunc (valCoder f) false in
      match ValAppendFunc, IsPointer vt with
      | None, true =>
          match kindOf kt with
          | RScalar (Int64 | Uint64) | RScalar (Int32 | Uint32) =>
              do m <- as_entries v; append_map_loop f (opt_fn KeyAppendFunc) (append_struct_value vt) b m
          | RString =>
              do m <- as_entries v;
              append_map_loop f (bytes_fn (fun b k => AppendVarint b (blen k) ++ k)) (append_struct_value vt) b m
          | _ => AppendMapGeneric f b v
          end
      | _, _ => AppendMapGeneric f b v
      end
  | _ => Panic
  end.

(** The body of the field loop, encoder.go:54-145 *)
Definition append_field (f : fdesc) (b : bytes) (slot : val) : res bytes :=
  do data <- oneof_data f slot;
  match data with
  | None => Ok b
  | Some v =>
      let t := f_T f in
      do skip <- skipzero t v;
      if skip then Ok b
      else
        do (t, p) <- deref t v;
        match f_rep f, GetAppendFunc (fieldCoder f) (f_packed f) with
        | false, Some g => do x <- must p; g (AppendVarintSmall b (WireTag f)) x
        | _, AppendFunc =>
            if IsList f then
              if f_packed f then
                match AppendFunc with
                | Some g => do x <- must p; g (AppendVarintSmall b (WireTag f)) x
                | None => Panic
                end
              else
                match appendListFuncs (fieldCoder f) with
                | Some g => do x <- must p; g b (WireTag f) x
                | None => do x <- must p; AppendListField f b x
                end
            else if IsMap f then
              match getAppendMapFunc f with
              | Some row => do x <- must p; AppendMap row b (WireTag f) x
              | None => do x <- must p; AppendMapField f b x
              end
            else
              match t with
              | TStruct id => rec id (AppendVarintSmall b (WireTag f)) p
              | _ => Panic
              end
        end
  end.

Fixpoint append_fields (fs : list fdesc) (b : bytes) (slots : list val) : res bytes :=
  match fs with
  | [] => Ok b
  | f :: r =>
      match nth_error slots (f_slot f) with
      | Some slot => do b1 <- append_field f b slot; append_fields r b1 slots
      | None => Panic
      end
  end.
End Rec.

(** appendUnknownFields, encoder.go:326-339 *)
Definition appendUnknownFields (b : bytes) (u : option bytes) : bytes :=
  match u with Some x => b ++ x | None => b end.

(** AppendStruct, encoder.go:42-155; [d] is maxdepth *)
Fixpoint AppendStruct (d : nat) (id : nat) (b : bytes) (base : option val) (encodeLen : bool) : res bytes :=
  match d with
  | O => Err EMaxDepth
  | S d' =>
      let s := E id in
      match match base with Some v => v | None => sd_zero s end with
      | VStruct slots unk =>
          let b0 := if encodeLen then LenReserve b else b in
          do b1 <- append_fields (fun id b base => AppendStruct d' id b base true) (sd_fields s) b0 slots;
          let b2 := if sd_unknown s then appendUnknownFields b1 unk else b1 in
          Ok (if encodeLen then LenPack b2 (length b2 - length b0) else b2)
      | _ => Panic
      end
  end.

(** defaultRecursionMaxDepth, internal/prutal/errors.go:27 *)
Definition defaultRecursionMaxDepth : nat := 1000.

(** The interface{} argument of the public API: nil, a non-pointer, or a pointer (maybe
    nil) to a struct type whose descriptor was accepted. *)
Inductive arg := ANil | AOther | APtr (id : nat) (p : option val).

(** MarshalAppend, internal/prutal/prutal.go:29-47 *)
Definition MarshalAppend (b : bytes) (a : arg) : res bytes :=
  match a with
  | ANil | AOther => Err ENotPointer
  | APtr id p => AppendStruct defaultRecursionMaxDepth id b p false
  end.

(** prutal.Marshal, prutal.go:27-30 *)
Definition Marshal (a : arg) : res bytes := MarshalAppend [] a.
End Encoder.
