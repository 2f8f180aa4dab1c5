(** The calls of the public API as programs over pools (Pools.v): Encoder.v, Sizer.v and Decoder.v
    with their scratch objects made explicit.  Memory that belongs to the caller (the message, the
    output buffer) is treated as in those files. *)
From Verif Require Import Base Wire WireSpec Coder MapTables Value WireVal Desc Encoder Sizer Decoder Pools.
Open Scope N_scope.

Definition ok {A} (r : res A) : prog (res A) := Ret r.

(** ** Encoder.tmp *)

(** *( *uint64)(e.p) = k, *( *uint32)(e.p) = k, encoder.go:254,279 (little endian) *)
Definition mem_put (w : nat) (n : N) (tmp : bytes) : bytes := le_bytes w n ++ skipn w tmp.
(** The number of bytes the append function of a coder reads, internal/wire/encoder.go:52-118.
    A string or bytes coder would read a header. *)
Definition coder_width (c : coder) : option nat :=
  match c with
  | CVarintU32 | CVarintI32 | CZigZag32 | CFixed32 => Some 4%nat
  | CVarint64 | CZigZag64 | CFixed64 => Some 8%nat
  | CBool => Some 1%nat
  | _ => None
  end.
Definition mem_get (w : nat) (tmp : bytes) : val := VNum (le_value (firstn w tmp)).

Section Calls.
Variable E : env.

Section Enc.
Variable recS : nat -> bytes -> option val -> prog (res bytes).
Variable e : nat.                                        (* the handle of the Encoder *)

(** AppendListField, encoder.go:157-186 *)
Fixpoint append_struct_elemsS (t : gotype) (tag : N) (b : bytes) (l : list val) : prog (res bytes) :=
  match l with
  | [] => Ret (Ok b)
  | v :: r =>
      rbind (ok (struct_elem t v)) (fun '(id, base) =>
      rbind (recS id (AppendVarintSmall b tag) base) (fun b1 =>
      append_struct_elemsS t tag b1 r))
  end.
Definition AppendListFieldS (f : fdesc) (b : bytes) (v : val) : prog (res bytes) :=
  match f_T f with
  | TSlice vt => rbind (ok (as_elems v)) (fun l => append_struct_elemsS vt (WireTag f) b l)
  | _ => Ret Panic
  end.

(** The value of an entry: encoder.go:232-240 *)
Definition struct_valueS (vt : gotype) (b : bytes) (v : val) : prog (res bytes) :=
  rbind (ok (struct_elem vt v)) (fun '(id, base) => recS id b base).
Definition valueS (f : fdesc) (vt : gotype) (b : bytes) (v : val) : prog (res bytes) :=
  match GetAppendFunc (valCoder f) false with Some g => ok (g b v) | None => struct_valueS vt b v end.

(** The entries, with the key at the location the iterator gives (encoder.go:215-246,304-323) or
    through the Encoder's scratch memory (253-275, 278-299): the key is written first, and read
    back before the value is encoded, which overwrites it if it contains such maps. *)
Fixpoint map_loopS (f : fdesc) (keyfn : AppendFunc) (valfn : bytes -> val -> prog (res bytes)) (b : bytes) (m : list (val * val)) : prog (res bytes) :=
  match m with
  | [] => Ret (Ok b)
  | (k, v) :: r =>
      let b0 := LenReserve (AppendVarintSmall b (WireTag f)) in
      rbind (ok (keyfn (AppendKeyTag b0 (wireTypes (f_ktag f))) k)) (fun b1 =>
      rbind (valfn (AppendValTag b1 (wireTypes (f_vtag f))) v) (fun b2 =>
      map_loopS f keyfn valfn (LenPack b2 (length b2 - length b0)) r))
  end.
Fixpoint map_loop_tmpS (w : nat) (f : fdesc) (keyfn : AppendFunc) (valfn : bytes -> val -> prog (res bytes)) (b : bytes) (m : list (val * val)) : prog (res bytes) :=
  match m with
  | [] => Ret (Ok b)
  | (VNum k, v) :: r =>
      Rd e (fun c => Wr e (mkCt (mem_put w k (c_tmp c)) (c_k c) (c_v c)) (
      let b0 := LenReserve (AppendVarintSmall b (WireTag f)) in
      Rd e (fun c =>
      match coder_width (keyCoder f) with
      | None => Ret Panic
      | Some w' =>
          rbind (ok (keyfn (AppendKeyTag b0 (wireTypes (f_ktag f))) (mem_get w' (c_tmp c)))) (fun b1 =>
          rbind (valfn (AppendValTag b1 (wireTypes (f_vtag f))) v) (fun b2 =>
          map_loop_tmpS w f keyfn valfn (LenPack b2 (length b2 - length b0)) r))
      end)))
  | _ => Ret Panic
  end.

(** The reflective loop, encoder.go:211-248.  tmp.MapWithPtr only reads the type in tmp.m. *)
Definition AppendMapGenericS (f : fdesc) (b : bytes) (v : val) : prog (res bytes) :=
  match f_T f with
  | TMap kt vt =>
      Get (PMap (f_T f)) (fun i =>
      bindP (rbind (ok (as_entries v)) (fun m =>
             map_loopS f (opt_fn (GetAppendFunc (keyCoder f) false)) (valueS f vt) b m))
            (fun r => match r with Ok _ | Err _ => Put i (Ret r) | _ => Ret r end))
  | _ => Ret Panic
  end.
Definition AppendMapFieldS (f : fdesc) (b : bytes) (v : val) : prog (res bytes) :=
  match f_T f with
  | TMap kt vt =>
      let KeyAppendFunc := GetAppendFunc (keyCoder f) false in
      let ValAppendFunc := GetAppendFunc (valCoder f) false in
      match ValAppendFunc, IsPointer vt with
      | None, true =>
          match kindOf kt with
          | RScalar (Int64 | Uint64) =>
              rbind (ok (as_entries v)) (fun m => map_loop_tmpS 8 f (opt_fn KeyAppendFunc) (struct_valueS vt) b m)
          | RScalar (Int32 | Uint32) =>
              rbind (ok (as_entries v)) (fun m => map_loop_tmpS 4 f (opt_fn KeyAppendFunc) (struct_valueS vt) b m)
          | RString =>
              rbind (ok (as_entries v)) (fun m => map_loopS f (bytes_fn (fun b k => AppendVarint b (blen k) ++ k)) (struct_valueS vt) b m)
          | _ => AppendMapGenericS f b v
          end
      | _, _ => AppendMapGenericS f b v
      end
  | _ => Ret Panic
  end.

(** The body of the field loop, encoder.go:54-145 *)
Definition append_fieldS (f : fdesc) (b : bytes) (slot : val) : prog (res bytes) :=
  rbind (ok (oneof_data f slot)) (fun data =>
  match data with
  | None => Ret (Ok b)
  | Some v =>
      let t := f_T f in
      rbind (ok (skipzero E t v)) (fun skip =>
      if skip then Ret (Ok b)
      else
        rbind (ok (deref t v)) (fun '(t, p) =>
        match f_rep f, GetAppendFunc (fieldCoder f) (f_packed f) with
        | false, Some g => ok (do x <- must p; g (AppendVarintSmall b (WireTag f)) x)
        | _, AppendFunc =>
            if IsList f then
              if f_packed f then
                match AppendFunc with
                | Some g => ok (do x <- must p; g (AppendVarintSmall b (WireTag f)) x)
                | None => Ret Panic
                end
              else
                match appendListFuncs (fieldCoder f) with
                | Some g => ok (do x <- must p; g b (WireTag f) x)
                | None => rbind (ok (must p)) (fun x => AppendListFieldS f b x)
                end
            else if IsMap f then
              match getAppendMapFunc f with
              | Some row => ok (do x <- must p; AppendMap row b (WireTag f) x)
              | None => rbind (ok (must p)) (fun x => AppendMapFieldS f b x)
              end
            else
              match t with
              | TStruct id => recS id (AppendVarintSmall b (WireTag f)) p
              | _ => Ret Panic
              end
        end))
  end).
Fixpoint append_fieldsS (fs : list fdesc) (b : bytes) (slots : list val) : prog (res bytes) :=
  match fs with
  | [] => Ret (Ok b)
  | f :: r =>
      match nth_error slots (f_slot f) with
      | Some slot => rbind (append_fieldS f b slot) (fun b1 => append_fieldsS r b1 slots)
      | None => Ret Panic
      end
  end.
End Enc.

(** AppendStruct, encoder.go:42-155 *)
Fixpoint AppendStructS (d : nat) (e : nat) (id : nat) (b : bytes) (base : option val) (encodeLen : bool) : prog (res bytes) :=
  match d with
  | O => Ret (Err EMaxDepth)
  | S d' =>
      let s := E id in
      match match base with Some v => v | None => sd_zero s end with
      | VStruct slots unk =>
          let b0 := if encodeLen then LenReserve b else b in
          rbind (append_fieldsS (fun id b base => AppendStructS d' e id b base true) e (sd_fields s) b0 slots) (fun b1 =>
          let b2 := if sd_unknown s then appendUnknownFields b1 unk else b1 in
          Ret (Ok (if encodeLen then LenPack b2 (length b2 - length b0) else b2)))
      | _ => Ret Panic
      end
  end.

(** MarshalAppend, prutal.go:29-47; after a panic the Encoder is not put back *)
Definition MarshalAppendS (b : bytes) (a : arg) : prog (res bytes) :=
  match a with
  | ANil | AOther => Ret (Err ENotPointer)
  | APtr id p =>
      Get PEnc (fun e =>
      bindP (AppendStructS defaultRecursionMaxDepth e id b p false)
        (fun r => match r with Ok _ | Err _ => Put e (Ret r) | _ => Ret r end))
  end.

(** ** Sizer *)
Fixpoint sumS {A} (g : A -> prog (res N)) (l : list A) : prog (res N) :=
  match l with
  | [] => Ret (Ok 0)
  | a :: r => rbind (g a) (fun x => rbind (sumS g r) (fun y => Ret (Ok (x + y))))
  end.
Section Siz.
Variable recS : nat -> option val -> prog (res N).
Definition size_elemS (t : gotype) (v : val) : prog (res N) :=
  rbind (ok (struct_elem t v)) (fun '(id, base) => rbind (recS id base) (fun sz => Ret (Ok (SizeBytes sz)))).
(** sizeListField, sizer.go:115-170 *)
Definition sizeListFieldS (f : fdesc) (t : gotype) (v : val) : prog (res N) :=
  match t with
  | TSlice vt =>
      rbind (ok (as_elems v)) (fun l =>
      if Nat.eqb (length l) 0 then Ret (Ok 0)
      else if f_packed f then
        ok (do content <- sum_res (opt_sz (sizeFuncs (fieldCoder f))) l; Ok (WireTagSize f + SizeBytes content))
      else
        match sizeFuncs (fieldCoder f) with
        | Some g => ok (sum_res (fun x => do n <- g x; Ok (WireTagSize f + n)) l)
        | None => sumS (fun x => rbind (size_elemS vt x) (fun n => Ret (Ok (WireTagSize f + n)))) l
        end)
  | _ => Ret Panic
  end.
Definition size_map_loopS (f : fdesc) (keysz : val -> res N) (valsz : val -> prog (res N)) (m : list (val * val)) : prog (res N) :=
  sumS (fun kv => rbind (ok (keysz (fst kv))) (fun k => rbind (valsz (snd kv)) (fun v =>
                  Ret (Ok (WireTagSize f + SizeBytes (1 + k + 1 + v)))))) m.
(** The reflective loop, sizer.go:192-222 *)
Definition sizeMapGenericS (f : fdesc) (v : val) : prog (res N) :=
  match f_T f with
  | TMap kt vt =>
      Get (PMap (f_T f)) (fun i =>
      bindP (rbind (ok (as_entries v)) (fun m =>
             size_map_loopS f (opt_sz (sizeFuncs (keyCoder f)))
               (fun x => match sizeFuncs (valCoder f) with Some g => ok (g x) | None => size_elemS vt x end) m))
            (fun r => match r with Ok _ | Err _ => Put i (Ret r) | _ => Ret r end))
  | _ => Ret Panic
  end.
Definition sizeMapFieldS (f : fdesc) (v : val) : prog (res N) :=
  match f_T f with
  | TMap kt vt =>
      match getSizeMapFunc f with
      | Some row => ok (SizeMap row v (WireTagSize f))
      | None =>
          match sizeFuncs (valCoder f), IsPointer vt with
          | None, true =>
              match kindOf kt with
              | RScalar (Int64 | Uint64) =>
                  rbind (ok (as_entries v)) (fun m => size_map_loopS f (num_sz (sizeKeyU64 (f_ktag f))) (size_elemS vt) m)
              | RScalar Int32 =>
                  rbind (ok (as_entries v)) (fun m => size_map_loopS f (num_sz (fun k => sizeKeyU32 (f_ktag f) k true)) (size_elemS vt) m)
              | RScalar Uint32 =>
                  rbind (ok (as_entries v)) (fun m => size_map_loopS f (num_sz (fun k => sizeKeyU32 (f_ktag f) k false)) (size_elemS vt) m)
              | RString =>
                  rbind (ok (as_entries v)) (fun m => size_map_loopS f (fun k => do s <- as_bytes k; Ok (SizeBytes (blen s))) (size_elemS vt) m)
              | _ => sizeMapGenericS f v
              end
          | _, _ => sizeMapGenericS f v
          end
      end
  | _ => Ret Panic
  end.
(** The body of the field loop, sizer.go:36-107 *)
Definition size_fieldS (f : fdesc) (slot : val) : prog (res N) :=
  rbind (ok (oneof_data f slot)) (fun data =>
  match data with
  | None => Ret (Ok 0)
  | Some v =>
      let t := f_T f in
      rbind (ok (skipzero E t v)) (fun skip =>
      if skip then Ret (Ok 0)
      else
        rbind (ok (deref t v)) (fun '(t, p) =>
        match f_rep f, sizeFuncs (fieldCoder f) with
        | false, Some g => ok (do x <- must p; do n <- g x; Ok (WireTagSize f + n))
        | _, _ =>
            if IsList f then rbind (ok (must p)) (fun x => sizeListFieldS f t x)
            else if IsMap f then rbind (ok (must p)) (fun x => sizeMapFieldS f x)
            else
              match t with
              | TStruct id => rbind (recS id p) (fun sz => Ret (Ok (WireTagSize f + SizeBytes sz)))
              | _ => Ret Panic
              end
        end))
  end).
Definition size_fieldsS (fs : list fdesc) (slots : list val) : prog (res N) :=
  sumS (fun f => match nth_error slots (f_slot f) with
                 | Some slot => size_fieldS f slot
                 | None => Ret Panic
                 end) fs.
End Siz.
(** SizeStruct, sizer.go:28-113 *)
Fixpoint SizeStructS (d : nat) (id : nat) (base : option val) : prog (res N) :=
  match d with
  | O => Ret (Err EMaxDepth)
  | S d' =>
      let s := E id in
      match match base with Some v => v | None => sd_zero s end with
      | VStruct slots unk =>
          rbind (size_fieldsS (fun id base => SizeStructS d' id base) (sd_fields s) slots) (fun n =>
          Ret (Ok (if sd_unknown s then n + sizeUnknownFields unk else n)))
      | _ => Ret Panic
      end
  end.
Definition SizeS (a : arg) : prog (res N) :=
  match a with
  | ANil => Ret (Ok 0)
  | AOther => Ret (Err ENotPointer)
  | APtr id None => Ret (Ok 0)
  | APtr id (Some v) => SizeStructS defaultRecursionMaxDepth id (Some v)
  end.

(** ** Decoder *)
Definition dbindS {A B} (v : val) (p : res A) (k : A -> prog (dres B)) : prog (dres B) :=
  match p with Ok a => k a | Err e => Ret (DErr v e) | Panic => Ret DPanic | OutOfFuel => Ret DFuel end.
Definition dmapS {A} (put : val -> val) (p : prog (dres A)) : prog (dres A) := bindP p (fun r => Ret (dmap put r)).

Section Dec.
Variable recS : nat -> Z -> bytes -> val -> prog (dres unit).

(** DecodeMapValue, decoder.go:414-530, on the content [v] of the temporary *)
Definition DecodeMapValueS (f : fdesc) (vt : gotype) (maxdepth : Z) (b : bytes) (v : val) : prog (dres unit) :=
  match ConsumeKVTag b with
  | Some (2, typ) =>
      let '(t, p, put) := mallocIfPointer E vt v in
      dbindS (put p) (slice_from b 1) (fun b1 =>
      match dec_scalar (f_vtag f) t typ b1 p with
      | Some r => dbindS (put p) r (fun '(p', _) => Ret (DOk (put p') tt))
      | None =>
          if typ =? WBytes then
            dbindS (put p) (ConsumeBytes b1) (fun '(fb, _) =>
            match t with
            | TBytes => Ret (DOk (put (VBytes (Some fb))) tt)
            | TString => Ret (DOk (put (VStr fb)) tt)
            | TStruct id => dmapS put (recS id (maxdepth - 1)%Z fb p)
            | _ => Ret (DErr (put p) EWireType)
            end)
          else Ret (DErr (put p) EWireType)
      end)
  | _ => Ret (DErr v EKVNum)
  end.

(** DecodeMapPair, decoder.go:532-559, with the temporaries in the object [i].  The value is
    decoded in place in the temporary: what the model keeps in the program in between and writes
    back at the end, the code leaves in the object. *)
Definition DecodeMapPairS (f : fdesc) (kt vt : gotype) (maxdepth : Z) (b : bytes) (p : val) (i : nat) : prog (dres unit) :=
  Rd i (fun c =>
  Wr i (match vt with TStruct id => mkCt (c_tmp c) (c_k c) (sd_zero (E id)) | _ => c end) (
  match p with
  | VMap m =>
      let m := match m with Some m => m | None => [] end in
      let p := VMap (Some m) in
      Rd i (fun c =>
      dbindS p (DecodeMapKey f kt b (c_k c)) (fun '(k, n) =>
      Wr i (mkCt (c_tmp c) k (c_v c)) (
      dbindS p (slice_from b n) (fun b1 =>
      Rd i (fun c =>
      bindP (DecodeMapValueS f vt maxdepth b1 (c_v c)) (fun r =>
      match r with
      | DOk v _ =>
          Rd i (fun c => Wr i (mkCt (c_tmp c) (c_k c) v) (
          Rd i (fun c => Ret (DOk (VMap (Some (map_set m (c_k c) (c_v c)))) tt))))
      | DErr v e => Rd i (fun c => Wr i (mkCt (c_tmp c) (c_k c) v) (Ret (DErr p e)))
      | DPanic => Ret DPanic
      | DFuel => Ret DFuel
      end))))))
  | _ => Ret DPanic
  end)).

(** decoder.go:176-301; [tmv]: the handle of the temporaries *)
Definition dec_valueS (f : fdesc) (t : gotype) (typ : N) (maxdepth : Z) (b : bytes) (tmv : option nat) (p : val)
  : prog (dres (option nat * nat)) :=
  match dec_scalar (f_tag f) t typ b p with
  | Some r => dbindS p r (fun '(p', n) => Ret (DOk p' (tmv, n)))
  | None =>
      if typ =? WBytes then
        dbindS p (ConsumeBytes b) (fun '(fb, n) =>
        match t with
        | TBytes => Ret (DOk (VBytes (Some fb)) (tmv, n))
        | TString => Ret (DOk (VStr fb) (tmv, n))
        | TMap _ _ =>
            match f_T f with
            | TMap kt vt =>
                match getMapDecodeFunc f with
                | Some row =>
                    match p with
                    | VMap m =>
                        dbindS p (DecodeMapKV row fb) (fun '(k, v) =>
                        Ret (DOk (VMap (Some (map_set (match m with Some m => m | None => [] end) k v))) (tmv, n)))
                    | _ => Ret DPanic
                    end
                | None =>
                    let pair i := bindP (DecodeMapPairS f kt vt (maxdepth - 1)%Z fb p i) (fun r =>
                      match r with
                      | DOk p' _ => Ret (DOk p' (Some i, n))
                      | DErr p' e => Ret (DErr p' e)
                      | DPanic => Ret DPanic
                      | DFuel => Ret DFuel
                      end) in
                    match tmv with
                    | Some i => pair i
                    | None => Get (PMap (f_T f)) pair
                    end
                end
            | _ => Ret DPanic
            end
        | TStruct id =>
            bindP (recS id (maxdepth - 1)%Z fb p) (fun r =>
            match r with
            | DOk p' _ => Ret (DOk p' (tmv, n))
            | DErr p' e => Ret (DErr p' e)
            | DPanic => Ret DPanic
            | DFuel => Ret DFuel
            end)
        | _ => Ret (DErr p EWireType)
        end)
      else Ret (DErr p EWireType)
  end.

(** decoder.go:129-301 *)
Definition dec_fieldS (f : fdesc) (typ : N) (maxdepth : Z) (b : bytes) (tmv : option nat) (slot : val)
  : prog (dres (option nat * nat)) :=
  let t := f_T f in
  let '(p, put0) :=
    match f_oneof f with
    | Some w => (fresh E t, fun x => VIface (Some (w, Some x)))
    | None => (slot, fun x => x)
    end in
  let '(t, p, put1) := mallocIfPointer E t p in
  dmapS (fun x => put0 (put1 x))
    (match f_rep f, t with
     | true, TSlice te =>
         if (typ =? WBytes) && f_packed f then
           match packedDecoderFuncs (packedCoder f) with
           | Some g =>
               dbindS p (ConsumeBytes b) (fun '(packed, n) =>
               dbindS p (g packed) (fun l =>
               Ret (DOk (VSlice (map VNum l) []) (tmv, n))))
           | None => Ret DPanic
           end
         else
           match p with
           | VSlice elems spare =>
               match grow E te elems spare with
               | e0 :: sp =>
                   let '(t, p, put2) := mallocIfPointer E te e0 in
                   dmapS (fun x => VSlice (elems ++ [put2 x]) sp) (dec_valueS f t typ maxdepth b tmv p)
               | [] => Ret DPanic
               end
           | _ => Ret DPanic
           end
     | _, _ => dec_valueS f t typ maxdepth b tmv p
     end).

(** The loop decoder.go:106-307 *)
Definition put_back {A} (tmv : option nat) (k : prog A) : prog A :=
  match tmv with Some i => Put i k | None => k end.
Fixpoint decode_loopS (fuel : nat) (s : sdesc) (maxdepth : Z)
    (f : option fdesc) (tmv : option nat) (slots : list val) (unk : option bytes) (b : bytes) : prog (dres unit) :=
  match b with
  | [] => put_back tmv (Ret (DOk (VStruct slots unk) tt))
  | _ =>
      match fuel with
      | O => Ret DFuel
      | S fuel' =>
          let st := VStruct slots unk in
          dbindS st (ConsumeTag b) (fun '(num, typ, n) =>
          dbindS st (slice_from b n) (fun b1 =>
          let cached := match f with Some f0 => if (f_id f0 =? Z.of_N num)%Z then Some f0 else None | None => None end in
          let known tmv f :=
            match nth_error slots (f_slot f) with
            | None => Ret DPanic
            | Some slot =>
                bindP (dec_fieldS f typ maxdepth b1 tmv slot) (fun r =>
                match r with
                | DOk slot' (tmv', m) =>
                    let slots' := upd_nth (f_slot f) slot' slots in
                    dbindS (VStruct slots' unk) (slice_from b1 m) (fun b2 =>
                    decode_loopS fuel' s maxdepth (Some f) tmv' slots' unk b2)
                | DErr slot' e => Ret (DErr (VStruct (upd_nth (f_slot f) slot' slots) unk) e)
                | DPanic => Ret DPanic
                | DFuel => Ret DFuel
                end)
            end in
          match cached with
          | Some f => known tmv f
          | None =>
              put_back tmv (
              match GetField s (Z.of_N num) with
              | None => Ret DPanic
              | Some None =>
                  dbindS st (ConsumeFieldValue num typ b1) (fun m =>
                  dbindS st (slice_from b1 m) (fun b2 =>
                  dbindS st (slice_to b (n + m)) (fun raw =>
                  decode_loopS fuel' s maxdepth None None slots (appendToUnknownFields s unk raw) b2)))
              | Some (Some f) => known None f
              end)
          end))
      end
  end.
End Dec.

(** DecodeStruct, decoder.go:90-308 *)
Fixpoint DecodeStructS (fuel : nat) (id : nat) (maxdepth : Z) (b : bytes) (base : val) : prog (dres unit) :=
  match fuel with
  | O => Ret DFuel
  | S fuel' =>
      if (maxdepth =? 0)%Z then Ret (DErr base EMaxDepth)
      else
        match base with
        | VStruct slots unk =>
            let s := E id in
            decode_loopS (DecodeStructS fuel') (length b) s maxdepth None None slots (resetUnknownFields s unk) b
        | _ => Ret DPanic
        end
  end.

(** Unmarshal, prutal.go:73-87 *)
Definition UnmarshalS (b : bytes) (a : arg) : prog (dres unit) :=
  match a with
  | ANil | AOther => Ret (DErr VUninit ENotPointer)
  | APtr id (Some v) =>
      Get PDec (fun d =>
      bindP (DecodeStructS (S (length b)) id (Z.of_nat defaultRecursionMaxDepth) b v)
        (fun r => match r with DOk _ _ | DErr _ _ => Put d (Ret r) | _ => Ret r end))
  | APtr id None => Get PDec (fun _ => Ret DPanic)
  end.

(** ** Calls and their results *)
Inductive call := CMarshal (b : bytes) (a : arg) | CSize (a : arg) | CUnmarshal (b : bytes) (a : arg).
Inductive outcome := OMarshal (r : res bytes) | OSize (r : res N) | OUnmarshal (r : dres unit).
Definition run (c : call) : prog outcome :=
  match c with
  | CMarshal b a => bindP (MarshalAppendS b a) (fun r => Ret (OMarshal r))
  | CSize a => bindP (SizeS a) (fun r => Ret (OSize r))
  | CUnmarshal b a => bindP (UnmarshalS b a) (fun r => Ret (OUnmarshal r))
  end.
End Calls.
