(** internal/prutal/encoder.go again, on values in memory (Heap.v): the same functions as in
    Encoder.v, but every pointer, slice and map is followed in the heap.  The functions of
    internal/wire are called on what they read: [view]. *)
From Verif Require Import Base Wire Coder MapTables Value WireVal Desc Encoder Heap.
Open Scope N_scope.

Section EncoderH.
Variable E : env.
Variable h : heap.

Definition elemsH (x : hv) : res (list hv) :=
  match x with HSlice a o l _ => Ok (elems h a o l) | _ => Panic end.
Definition entriesH (x : hv) : res (list (hv * hv)) :=
  match x with HMap (Some a) => Ok (entries (h a)) | HMap None => Ok [] | _ => Panic end.

(** encoder.go:58-67 *)
Definition oneof_dataH (f : fdesc) (slot : hv) : res (option hv) :=
  match f_oneof f with
  | None => Ok (Some slot)
  | Some w =>
      match slot with
      | HIface None => Ok None
      | HIface (Some (_, None)) => Ok None
      | HIface (Some (w', Some p)) => Ok (if Nat.eqb w' w then Some (load h p) else None)
      | _ => Panic
      end
  end.

(** encoder.go:70-80 *)
Definition skipzeroH (t : gotype) (x : hv) : res bool := skipzero E t (view h x).

(** encoder.go:85-88 *)
Definition derefH (t : gotype) (x : hv) : res (gotype * option hv) :=
  match t with
  | TPtr t' => match x with HPtr p => Ok (t', option_map (load h) p) | _ => Panic end
  | _ => Ok (t, Some x)
  end.
Definition mustH (p : option hv) : res hv := match p with Some v => Ok v | None => Panic end.

(** encoder.go:161-167,176-179,235-239 *)
Definition struct_elemH (t : gotype) (x : hv) : res (nat * option hv) :=
  match t with
  | TStruct id => Ok (id, Some x)
  | TPtr (TStruct id) => match x with HPtr p => Ok (id, option_map (load h) p) | _ => Panic end
  | _ => Panic
  end.

Definition AppendFuncH := bytes -> hv -> res bytes.
Definition leaf (g : AppendFunc) : AppendFuncH := fun b x => g b (view h x).

Section Rec.
Variable rec : nat -> bytes -> option hv -> res bytes.

(** AppendListField, encoder.go:157-186 *)
Fixpoint append_struct_elemsH (t : gotype) (tag : N) (b : bytes) (l : list hv) : res bytes :=
  match l with
  | [] => Ok b
  | x :: r =>
      do (id, base) <- struct_elemH t x;
      do b1 <- rec id (AppendVarintSmall b tag) base;
      append_struct_elemsH t tag b1 r
  end.
Definition AppendListFieldH (f : fdesc) (b : bytes) (x : hv) : res bytes :=
  match f_T f with
  | TSlice vt => do l <- elemsH x; append_struct_elemsH vt (WireTag f) b l
  | _ => Panic
  end.

(** encoder.go:221-245, 253-271, 278-296, 304-321 *)
Definition append_map_entryH (f : fdesc) (keyfn valfn : AppendFuncH) (b : bytes) (k v : hv) : res bytes :=
  let b0 := LenReserve (AppendVarintSmall b (WireTag f)) in
  do b1 <- keyfn (AppendKeyTag b0 (wireTypes (f_ktag f))) k;
  do b2 <- valfn (AppendValTag b1 (wireTypes (f_vtag f))) v;
  Ok (LenPack b2 (length b2 - length b0)).
Fixpoint append_map_loopH (f : fdesc) (keyfn valfn : AppendFuncH) (b : bytes) (m : list (hv * hv)) : res bytes :=
  match m with
  | [] => Ok b
  | (k, v) :: r => do b1 <- append_map_entryH f keyfn valfn b k v; append_map_loopH f keyfn valfn b1 r
  end.

(** encoder.go:232-240 *)
Definition append_struct_valueH (vt : gotype) : AppendFuncH :=
  fun b x => do (id, base) <- struct_elemH vt x; rec id b base.

(** encoder.go:215-248 *)
Definition AppendMapGenericH (f : fdesc) (b : bytes) (x : hv) : res bytes :=
  match f_T f with
  | TMap kt vt =>
      do m <- entriesH x;
      append_map_loopH f (leaf (opt_fn (GetAppendFunc (keyCoder f) false)))
        (match GetAppendFunc (valCoder f) false with Some g => leaf g | None => append_struct_valueH vt end) b m
  | _ => Panic
  end.

(** AppendMapField, encoder.go:191-249, and its variants 251-324 *)
Definition AppendMapFieldH (f : fdesc) (b : bytes) (x : hv) : res bytes :=
  match f_T f with
  | TMap kt vt =>
      let KeyAppendFunc := GetAppendFunc (keyCoder f) false in
      let ValAppendFunc := GetAppendFunc (valCoder f) false in
      match ValAppendFunc, IsPointer vt with
      | None, true =>
          match kindOf kt with
          | RScalar (Int64 | Uint64) | RScalar (Int32 | Uint32) =>
              do m <- entriesH x; append_map_loopH f (leaf (opt_fn KeyAppendFunc)) (append_struct_valueH vt) b m
          | RString =>
              do m <- entriesH x;
              append_map_loopH f (leaf (bytes_fn (fun b k => AppendVarint b (blen k) ++ k))) (append_struct_valueH vt) b m
          | _ => AppendMapGenericH f b x
          end
      | _, _ => AppendMapGenericH f b x
      end
  | _ => Panic
  end.

(** The body of the field loop, encoder.go:54-145 *)
Definition append_fieldH (f : fdesc) (b : bytes) (slot : hv) : res bytes :=
  do data <- oneof_dataH f slot;
  match data with
  | None => Ok b
  | Some v =>
      let t := f_T f in
      do skip <- skipzeroH t v;
      if skip then Ok b
      else
        do (t, p) <- derefH t v;
        match f_rep f, GetAppendFunc (fieldCoder f) (f_packed f) with
        | false, Some g => do x <- mustH p; leaf g (AppendVarintSmall b (WireTag f)) x
        | _, AppendFunc =>
            if IsList f then
              if f_packed f then
                match AppendFunc with
                | Some g => do x <- mustH p; leaf g (AppendVarintSmall b (WireTag f)) x
                | None => Panic
                end
              else
                match appendListFuncs (fieldCoder f) with
                | Some g => do x <- mustH p; g b (WireTag f) (view h x)
                | None => do x <- mustH p; AppendListFieldH f b x
                end
            else if IsMap f then
              match getAppendMapFunc f with
              | Some row => do x <- mustH p; AppendMap row b (WireTag f) (view h x)
              | None => do x <- mustH p; AppendMapFieldH f b x
              end
            else
              match t with
              | TStruct id => rec id (AppendVarintSmall b (WireTag f)) p
              | _ => Panic
              end
        end
  end.

Fixpoint append_fieldsH (fs : list fdesc) (b : bytes) (slots : list hv) : res bytes :=
  match fs with
  | [] => Ok b
  | f :: r =>
      match nth_error slots (f_slot f) with
      | Some slot => do b1 <- append_fieldH f b slot; append_fieldsH r b1 slots
      | None => Panic
      end
  end.
End Rec.

(** AppendStruct, encoder.go:42-155 *)
Fixpoint AppendStructH (d : nat) (id : nat) (b : bytes) (base : option hv) (encodeLen : bool) : res bytes :=
  match d with
  | O => Err EMaxDepth
  | S d' =>
      let s := E id in
      match match base with Some x => x | None => embed (sd_zero s) end with
      | HStruct slots unk =>
          let b0 := if encodeLen then LenReserve b else b in
          do b1 <- append_fieldsH (fun id b base => AppendStructH d' id b base true) (sd_fields s) b0 slots;
          let b2 := if sd_unknown s then appendUnknownFields b1 unk else b1 in
          Ok (if encodeLen then LenPack b2 (length b2 - length b0) else b2)
      | _ => Panic
      end
  end.

(** A pointer to a struct type as interface{}. *)
Record argH := mkAH { a_id : nat; a_ptr : option loc }.
(** MarshalAppend, internal/prutal/prutal.go:29-47; Marshal, prutal.go:27-30 *)
Definition MarshalAppendH (b : bytes) (a : argH) : res bytes :=
  AppendStructH defaultRecursionMaxDepth (a_id a) b (option_map (load h) (a_ptr a)) false.
Definition MarshalH (a : argH) : res bytes := MarshalAppendH [] a.
End EncoderH.
