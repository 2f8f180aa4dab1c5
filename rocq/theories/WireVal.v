(** The pointer-taking functions of internal/wire, applied to Go values.
    [Panic] also covers reading memory as a value of the wrong type. *)
From Verif Require Import Base Wire Coder MapTables Value.
From Coq Require Import Init.Byte.
Open Scope N_scope.

Definition as_num (v : val) : res N := match v with VNum n => Ok n | _ => Panic end.
(** A string or []byte read through hack.StringHeader / *( *string). *)
Definition as_bytes (v : val) : res bytes :=
  match v with
  | VStr s => Ok s
  | VBytes (Some s) => Ok s
  | VBytes None => Ok []
  | _ => Panic
  end.
Definition as_elems (v : val) : res (list val) :=
  match v with VSlice e _ => Ok e | _ => Panic end.
(** A Go map; ranging over nil does nothing. *)
Definition as_entries (v : val) : res (list (val * val)) :=
  match v with VMap (Some m) => Ok m | VMap None => Ok [] | _ => Panic end.

Fixpoint mapM {A B} (f : A -> res B) (l : list A) : res (list B) :=
  match l with
  | [] => Ok []
  | a :: r => do b <- f a; do rb <- mapM f r; Ok (b :: rb)
  end.

(** ** appendFuncs, internal/wire/encoder.go:29-40,44-49 *)
Definition AppendFunc := bytes -> val -> res bytes.
Definition num_fn (g : bytes -> N -> bytes) : AppendFunc := fun b v => do n <- as_num v; Ok (g b n).
Definition bytes_fn (g : bytes -> bytes -> bytes) : AppendFunc := fun b v => do s <- as_bytes v; Ok (g b s).

Definition appendFuncs (c : coder) : option AppendFunc :=
  match c with
  | CVarintU32 => Some (num_fn UnsafeAppendVarintU32)
  | CVarintI32 => Some (num_fn UnsafeAppendVarintI32)
  | CVarint64 => Some (num_fn UnsafeAppendVarintU64)
  | CZigZag32 => Some (num_fn UnsafeAppendZigZag32)
  | CZigZag64 => Some (num_fn UnsafeAppendZigZag64)
  | CFixed32 => Some (num_fn UnsafeAppendFixed32)
  | CFixed64 => Some (num_fn UnsafeAppendFixed64)
  | CString => Some (bytes_fn UnsafeAppendString)
  | CBytes => Some (bytes_fn UnsafeAppendString)
  | CBool => Some (num_fn UnsafeAppendBool)
  | CStruct | CUnknown => None
  end.

(** ** encoder_packed.go *)

(** The element loops of UnsafeAppendPacked*: append one element of a packed list. *)
Definition append_elems (g : bytes -> N -> bytes) (b : bytes) (l : list N) : bytes :=
  fold_left g l b.

(** UnsafeAppendPackedVarintU64/I32/U32/ZigZag64/ZigZag32, encoder_packed.go:33-104 *)
Definition packed_lenpack (g : N -> N) : AppendFunc := fun b v =>
  do e <- as_elems v;
  do l <- mapM as_num e;
  let b0 := LenReserve b in
  let b1 := append_elems (fun b n => AppendVarint b (g n)) b0 l in
  Ok (LenPack b1 (length b1 - length b0)).
Definition UnsafeAppendPackedVarintU64 := packed_lenpack (fun n => n).
Definition UnsafeAppendPackedVarintI32 := packed_lenpack sext32.
Definition UnsafeAppendPackedVarintU32 := packed_lenpack (fun n => n).
Definition UnsafeAppendPackedZigZag64 := packed_lenpack zz64.
Definition UnsafeAppendPackedZigZag32 := packed_lenpack zz32.

(** UnsafeAppendPackedFixed64, encoder_packed.go:106-120 *)
Definition UnsafeAppendPackedFixed64 : AppendFunc := fun b v =>
  do e <- as_elems v;
  do l <- mapM as_num e;
  Ok (append_elems (fun b n => b ++ fixed64_bytes n) (AppendVarint b (8 * blen l)) l).
(** UnsafeAppendPackedFixed32, encoder_packed.go:122-132 *)
Definition UnsafeAppendPackedFixed32 : AppendFunc := fun b v =>
  do e <- as_elems v;
  do l <- mapM as_num e;
  Ok (append_elems (fun b n => b ++ fixed32_bytes n) (AppendVarint b (4 * blen l)) l).
(** UnsafeAppendPackedBool, encoder_packed.go:134-138 *)
Definition UnsafeAppendPackedBool : AppendFunc := fun b v =>
  do e <- as_elems v;
  do l <- mapM as_num e;
  Ok (append_elems (fun b n => b ++ [n2b n]) (AppendVarint b (blen l)) l).

(** appendPackedFuncs, encoder_packed.go:21-30 *)
Definition appendPackedFuncs (c : coder) : option AppendFunc :=
  match c with
  | CVarintU32 => Some UnsafeAppendPackedVarintU32
  | CVarintI32 => Some UnsafeAppendPackedVarintI32
  | CVarint64 => Some UnsafeAppendPackedVarintU64
  | CZigZag32 => Some UnsafeAppendPackedZigZag32
  | CZigZag64 => Some UnsafeAppendPackedZigZag64
  | CFixed32 => Some UnsafeAppendPackedFixed32
  | CFixed64 => Some UnsafeAppendPackedFixed64
  | CBool => Some UnsafeAppendPackedBool
  | _ => None
  end.

(** GetAppendFunc, encoder.go:44-49 *)
Definition GetAppendFunc (c : coder) (packed : bool) : option AppendFunc :=
  if packed then appendPackedFuncs c else appendFuncs c.

(** ** encoder_list.go:23-153 *)
Definition append_list {A} (g : bytes -> A -> bytes) (tag : N) (b : bytes) (l : list A) : bytes :=
  fold_left (fun b x => g (AppendVarintSmall b tag) x) l b.

Definition AppendRepeatedFunc := bytes -> N -> val -> res bytes.
Definition num_list (g : bytes -> N -> bytes) : AppendRepeatedFunc := fun b tag v =>
  do e <- as_elems v; do l <- mapM as_num e; Ok (append_list g tag b l).
Definition bytes_list (g : bytes -> bytes -> bytes) : AppendRepeatedFunc := fun b tag v =>
  do e <- as_elems v; do l <- mapM as_bytes e; Ok (append_list g tag b l).

Definition appendListFuncs (c : coder) : option AppendRepeatedFunc :=
  match c with
  | CVarintU32 => Some (num_list (fun b v => AppendVarint b v))            (* 70-80 *)
  | CVarintI32 => Some (num_list (fun b x => AppendVarint b (sext32 x)))   (* 45-56 *)
  | CVarint64 => Some (num_list (fun b v => AppendVarint b v))             (* 58-68 *)
  | CZigZag32 => Some (num_list (fun b x => AppendVarint b (zz32 x)))      (* 95-106 *)
  | CZigZag64 => Some (num_list (fun b x => AppendVarint b (zz64 x)))      (* 82-93 *)
  | CFixed32 => Some (num_list (fun b v => b ++ fixed32_bytes v))          (* 123-132 *)
  | CFixed64 => Some (num_list (fun b v => b ++ fixed64_bytes v))          (* 108-121 *)
  | CBool => Some (num_list (fun b v => b ++ [n2b v]))                     (* 134-140 *)
  | CBytes => Some (bytes_list (fun b v => AppendVarint b (blen v) ++ v))  (* 151-158 *)
  | CString => Some (bytes_list (fun b v => AppendVarint b (blen v) ++ v)) (* 142-149 *)
  | CStruct | CUnknown => None
  end.

(** ** size.go:27-76 *)
Definition num_sz (g : N -> N) : val -> res N := fun v => do n <- as_num v; Ok (g n).
Definition bytes_sz : val -> res N := fun v => do s <- as_bytes v; Ok (SizeString s).

Definition sizeFuncs (c : coder) : option (val -> res N) :=
  match c with
  | CVarintU32 => Some (num_sz SizeVarintU32)
  | CVarintI32 => Some (num_sz SizeVarintI32)
  | CVarint64 => Some (num_sz SizeVarintU64)
  | CZigZag32 => Some (num_sz SizeZigZag32)
  | CZigZag64 => Some (num_sz SizeZigZag64)
  | CFixed32 => Some (num_sz SizeFixed32)
  | CFixed64 => Some (num_sz SizeFixed64)
  | CString => Some bytes_sz
  | CBytes => Some bytes_sz
  | CBool => Some (num_sz SizeBool)
  | CStruct | CUnknown => None
  end.

(** ** encoder_map.go fast paths *)

(** Payload and wire type of appendMapKey_* (123-195) and appendMapValue_* (197-275);
    both families write the same payload after their tag byte. *)
Definition mapenc_wt (m : mapenc) : N :=
  match m with
  | MVarintU32 | MVarintU64 | MZigZag32 | MZigZag64 | MBool => WVarint
  | MFixed32 => WFixed32
  | MFixed64 => WFixed64
  | MBytes | MString => WBytes
  end.
Definition mapenc_payload (m : mapenc) (b : bytes) (v : val) : res bytes :=
  match m with
  | MVarintU32 => do n <- as_num v; Ok (AppendVarint b n)
  | MVarintU64 => do n <- as_num v; Ok (AppendVarint b n)
  | MZigZag32 => do n <- as_num v; Ok (AppendVarint b (zz32 n))
  | MZigZag64 => do n <- as_num v; Ok (AppendVarint b (zz64 n))
  | MFixed32 => do n <- as_num v; Ok (b ++ fixed32_bytes n)
  | MFixed64 => do n <- as_num v; Ok (b ++ fixed64_bytes n)
  | MBool => do n <- as_num v; Ok (b ++ [if n =? 0 then x00 else x01])
  | MBytes | MString => do s <- as_bytes v; Ok (AppendVarint b (blen s) ++ s)
  end.
Definition appendMapKey (m : mapenc) (b : bytes) (v : val) : res bytes :=
  mapenc_payload m (b ++ [n2b (N.lor (N.shiftl 1 3) (mapenc_wt m))]) v.
Definition appendMapValue (m : mapenc) (b : bytes) (v : val) : res bytes :=
  mapenc_payload m (b ++ [n2b (N.lor (N.shiftl 2 3) (mapenc_wt m))]) v.

(** The common body of the 72 AppendMap_K_V functions (encoder_map.go:278-1237); the
    six functions with an extra [len(m) == 0] test behave the same. *)
Fixpoint append_map_entries (row : mapenc * mapenc) (b : bytes) (tag : N) (m : list (val * val)) : res bytes :=
  match m with
  | [] => Ok b
  | (k, v) :: r =>
      let b := AppendVarintSmall b tag in
      let b0 := LenReserve b in
      do b1 <- appendMapKey (fst row) b0 k;
      do b2 <- appendMapValue (snd row) b1 v;
      append_map_entries row (LenPack b2 (length b2 - length b0)) tag r
  end.
Definition AppendMap (row : mapenc * mapenc) : AppendRepeatedFunc := fun b tag v =>
  do m <- as_entries v; append_map_entries row b tag m.

(** ** size_map.go *)
Definition mapsz_fn (s : mapsz) (v : val) : res N :=
  match s with
  | SzVarintU32 => num_sz SizeVarint v
  | SzVarintU64 => num_sz SizeVarint v
  | SzVarintI32 => num_sz (fun n => SizeVarint (sext32 n)) v
  | SzZigZag32 => num_sz (fun n => SizeVarint (zz32 n)) v
  | SzZigZag64 => num_sz (fun n => SizeVarint (zz64 n)) v
  | SzFixed32 => num_sz (fun _ => 4) v
  | SzFixed64 => num_sz (fun _ => 8) v
  | SzBool => num_sz (fun _ => 1) v
  | SzString | SzByteSlice => do s <- as_bytes v; Ok (SizeBytes (blen s))
  end.

(** makeSizeMap, size_map.go:55-64 *)
Fixpoint size_map_entries (row : mapsz * mapsz) (wireTagSize : N) (m : list (val * val)) : res N :=
  match m with
  | [] => Ok 0
  | (k, v) :: r =>
      do ks <- mapsz_fn (fst row) k;
      do vs <- mapsz_fn (snd row) v;
      let entrySz := 1 + ks + 1 + vs in
      do n <- size_map_entries row wireTagSize r;
      Ok (wireTagSize + SizeBytes entrySz + n)
  end.
Definition SizeMap (row : mapsz * mapsz) (v : val) (wireTagSize : N) : res N :=
  do m <- as_entries v; size_map_entries row wireTagSize m.

(** ** decoder_packed.go *)

(** The 1- and 2-byte fast cases in front of ConsumeVarint, decoder_packed.go:46-55 (and
    72-81, 100-109, 128-137) and decoder_map.go:119-127. *)
Definition consume_varint_fast (b : bytes) : res (N * nat) :=
  match b with
  | b0 :: b1 :: _ =>
      if b2n b0 <? 0x80 then Ok (b2n b0, 1%nat)
      else if b2n b1 <? 0x80 then Ok (N.land (b2n b0) 0x7f + N.shiftl (b2n b1) 7, 2%nat)
      else ConsumeVarint b
  | b0 :: _ => if b2n b0 <? 0x80 then Ok (b2n b0, 1%nat) else ConsumeVarint b
  | [] => ConsumeVarint b
  end.

(** The loops of DecodePackedVarintU64/U32/ZigZag64/ZigZag32, decoder_packed.go:38-148; every
    ConsumeVarint error is reported as io.ErrUnexpectedEOF.  The fuel is the input length. *)
Fixpoint packed_varints (fuel : nat) (conv : N -> N) (b : bytes) : res (list N) :=
  match b with
  | [] => Ok []
  | _ =>
      match fuel with
      | O => OutOfFuel
      | S fuel' =>
          match consume_varint_fast b with
          | Ok (v, n) =>
              do b1 <- slice_from b n;
              do l <- packed_varints fuel' conv b1;
              Ok (conv v :: l)
          | Err _ => Err EUnexpectedEOF
          | Panic => Panic
          | OutOfFuel => OutOfFuel
          end
      end
  end.

(** DecodePackedFixed64/Fixed32 loops, decoder_packed.go:155-161,171-175; reading b[7]
    (b[3]) of a shorter slice panics. *)
Fixpoint packed_fixed (fuel : nat) (consume : bytes -> res (N * nat)) (b : bytes) : res (list N) :=
  match b with
  | [] => Ok []
  | _ =>
      match fuel with
      | O => OutOfFuel
      | S fuel' =>
          match consume b with
          | Ok (v, n) =>
              do b1 <- slice_from b n;
              do l <- packed_fixed fuel' consume b1;
              Ok (v :: l)
          | _ => Panic
          end
      end
  end.

Definition DecodePackedVarintU64 (b : bytes) : res (list N) := packed_varints (length b) (fun v => v) b.
Definition DecodePackedVarintU32 (b : bytes) : res (list N) := packed_varints (length b) wrap32 b.
Definition DecodePackedZigZag64 (b : bytes) : res (list N) := packed_varints (length b) DecodeZigZag b.
Definition DecodePackedZigZag32 (b : bytes) : res (list N) :=
  packed_varints (length b) (fun v => wrap32 (DecodeZigZag v)) b.
Definition DecodePackedFixed64 (b : bytes) : res (list N) :=
  if N.land (blen b) 7 =? 0 then packed_fixed (length b) ConsumeFixed64 b else Err EUnexpectedEOF.
Definition DecodePackedFixed32 (b : bytes) : res (list N) :=
  if N.land (blen b) 3 =? 0 then packed_fixed (length b) ConsumeFixed32 b else Err EUnexpectedEOF.
(** DecodePackedBool, decoder_packed.go:180-187 *)
Definition DecodePackedBool (b : bytes) : res (list N) :=
  Ok (map (fun c => if 0 <? b2n c then 1 else 0) b).

(** packedDecoderFuncs, decoder_packed.go:26-36.  The resulting slice has exactly the
    decoded elements and no spare capacity (the counting pass sizes it). *)
Definition packedDecoderFuncs (c : coder) : option (bytes -> res (list N)) :=
  match c with
  | CVarintU32 => Some DecodePackedVarintU32
  | CVarintI32 => Some DecodePackedVarintU32
  | CVarint64 => Some DecodePackedVarintU64
  | CZigZag32 => Some DecodePackedZigZag32
  | CZigZag64 => Some DecodePackedZigZag64
  | CFixed32 => Some DecodePackedFixed32
  | CFixed64 => Some DecodePackedFixed64
  | CBool => Some DecodePackedBool
  | _ => None
  end.

(** ** decoder_map.go *)

(** Field-number and wire-type checks shared by decodeMap_*; [b = b[1:]] after them. *)
Definition map_tag (b : bytes) (num typ : N) : res bytes :=
  match ConsumeKVTag b with
  | None => Err EKVNum
  | Some (fn, ty) =>
      if negb (fn =? num) then Err EKVNum
      else if negb (ty =? typ) then Err EWireType
      else slice_from b 1
  end.

(** decodeMap_Varint/_Fixed32/_Fixed64/_Bool, decoder_map.go:110-181 *)
Definition decodeMap (d : mapdec) (b : bytes) (num : N) : res (N * nat) :=
  match d with
  | DVarint => do b1 <- map_tag b num WVarint; do (v, n) <- consume_varint_fast b1; Ok (v, S n)
  | DFixed32 => do b1 <- map_tag b num WFixed32; do (v, n) <- ConsumeFixed32 b1; Ok (v, S n)
  | DFixed64 => do b1 <- map_tag b num WFixed64; do (v, n) <- ConsumeFixed64 b1; Ok (v, S n)
  | DBool =>
      if (length b <? 2)%nat then Err EUnexpectedEOF
      else do b1 <- map_tag b num WVarint;
           match b1 with
           | c :: _ => Ok ((if b2n c =? 0 then 0 else 1), 2%nat)
           | [] => Panic
           end
  end.

Definition mapconv_fn (c : mapconv) (n : N) : N :=
  match c with
  | XU32 => wrap32 n
  | XId => n
  | XZigZag64 => DecodeZigZag n
  | XZigZag32 => wrap32 (DecodeZigZag n)
  end.

(** The common body of the DecodeMap_K_V functions (decoder_map.go:183-918): returns the
    key and value stored. *)
Definition DecodeMapKV (row : (mapdec * mapconv) * (mapdec * mapconv)) (b : bytes) : res (val * val) :=
  let '((dk, ck), (dv, cv)) := row in
  do (k, n) <- decodeMap dk b 1;
  do b1 <- slice_from b n;
  do (v, _) <- decodeMap dv b1 2;
  Ok (VNum (mapconv_fn ck k), VNum (mapconv_fn cv v)).
