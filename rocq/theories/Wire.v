(** Model of internal/protowire/wire.go and of the scalar encoders, decoders and
    sizers of internal/wire. *)
From Verif Require Import Base.
From Coq Require Import Init.Byte.
Open Scope N_scope.

(** ** Wire types.  wire.go (internal/wire) 23-30, protowire/wire.go 38-45.
    The model keeps the numeric value 0..7 of [Type(x & 7)]. *)
Definition WVarint : N := 0.
Definition WFixed64 : N := 1.
Definition WBytes : N := 2.
Definition WSGroup : N := 3.
Definition WEGroup : N := 4.
Definition WFixed32 : N := 5.

(** byte((v>>k)&0x7f|0x80) *)
Definition c7 (v k : N) : byte := n2b (N.lor (N.land (N.shiftr v k) 0x7f) 0x80).
(** byte((v>>k)|0x80) *)
Definition c8 (v k : N) : byte := n2b (N.lor (N.shiftr v k) 0x80).
(** byte(v>>k) *)
Definition sh (v k : N) : byte := n2b (N.shiftr v k).

(** The ten-way switch shared verbatim by protowire.AppendVarint
    (protowire/wire.go:184-262), UnsafeAppendVarintU64 (internal/wire/encoder.go:83-158)
    and UnsafeAppendZigZag64 (encoder.go:242-317). *)
Definition varint_switch64 (b : bytes) (v : N) : bytes :=
  if v <? 2^7 then b ++ [n2b v]
  else if v <? 2^14 then b ++ [c7 v 0; sh v 7]
  else if v <? 2^21 then b ++ [c7 v 0; c7 v 7; sh v 14]
  else if v <? 2^28 then b ++ [c7 v 0; c7 v 7; c7 v 14; sh v 21]
  else if v <? 2^35 then b ++ [c7 v 0; c7 v 7; c7 v 14; c7 v 21; sh v 28]
  else if v <? 2^42 then b ++ [c7 v 0; c7 v 7; c7 v 14; c7 v 21; c7 v 28; sh v 35]
  else if v <? 2^49 then b ++ [c7 v 0; c7 v 7; c7 v 14; c7 v 21; c7 v 28; c7 v 35; sh v 42]
  else if v <? 2^56 then
    b ++ [c7 v 0; c7 v 7; c7 v 14; c7 v 21; c7 v 28; c7 v 35; c7 v 42; sh v 49]
  else if v <? 2^63 then
    b ++ [c7 v 0; c7 v 7; c7 v 14; c7 v 21; c7 v 28; c7 v 35; c7 v 42; c7 v 49; sh v 56]
  else
    b ++ [c7 v 0; c7 v 7; c7 v 14; c7 v 21; c7 v 28; c7 v 35; c7 v 42; c7 v 49; c7 v 56; x01].

(** protowire.AppendVarint, protowire/wire.go:184-262 *)
Definition pw_AppendVarint (b : bytes) (v : N) : bytes := varint_switch64 b v.

(** The loop [for v >= 0x80 { b = append(b, byte(v)|0x80); v >>= 7 }; append(b, byte(v))].
    The fuel bounds the number of iterations; [S (N.size_nat v)] always suffices
    (lemma [append_varint_loop_spec]). *)
Fixpoint append_varint_loop (fuel : nat) (b : bytes) (v : N) : bytes :=
  match fuel with
  | O => b
  | S fuel' =>
      if 0x80 <=? v
      then append_varint_loop fuel' (b ++ [n2b (N.lor (v mod 256) 0x80)]) (N.shiftr v 7)
      else b ++ [n2b v]
  end.

(** wire.AppendVarint, internal/wire/encoder.go:51-57 *)
Definition AppendVarint (b : bytes) (v : N) : bytes :=
  append_varint_loop (S (N.size_nat v)) b v.

(** wire.AppendVarintSmall, internal/wire/encoder.go:59-79 *)
Definition AppendVarintSmall (b : bytes) (v : N) : bytes :=
  if v <? 2^7 then b ++ [n2b v]
  else if v <? 2^14 then b ++ [c7 v 0; sh v 7]
  else if v <? 2^21 then b ++ [c7 v 0; c7 v 7; sh v 14]
  else append_varint_loop (S (N.size_nat v)) b v.

(** UnsafeAppendVarintU64, encoder.go:81-159 *)
Definition UnsafeAppendVarintU64 (b : bytes) (n : N) : bytes := varint_switch64 b n.

(** The five-way 32-bit switch with [byte((v>>k)|0x80)] of UnsafeAppendVarintU32
    (encoder.go:211-236) and of the non-negative half of UnsafeAppendVarintI32
    (encoder.go:167-192). *)
Definition varint_switch32 (b : bytes) (v : N) : bytes :=
  if v <? 2^7 then b ++ [n2b v]
  else if v <? 2^14 then b ++ [c8 v 0; sh v 7]
  else if v <? 2^21 then b ++ [c8 v 0; c8 v 7; sh v 14]
  else if v <? 2^28 then b ++ [c8 v 0; c8 v 7; c8 v 14; sh v 21]
  else b ++ [c8 v 0; c8 v 7; c8 v 14; c8 v 21; sh v 28].

(** UnsafeAppendVarintU32, encoder.go:209-237 *)
Definition UnsafeAppendVarintU32 (b : bytes) (n : N) : bytes := varint_switch32 b n.

(** UnsafeAppendVarintI32, encoder.go:163-207 *)
Definition UnsafeAppendVarintI32 (b : bytes) (n : N) : bytes :=
  if n <? 2^31 then varint_switch32 b n
  else
    let v := sext32 n in
    b ++ [c7 v 0; c7 v 7; c7 v 14; c7 v 21; c7 v 28; c7 v 35; c7 v 42; c7 v 49; c7 v 56; x01].

(** uint64(x<<1) ^ uint64(x>>63), e.g. encoder.go:241 *)
Definition zz64 (n : N) : N := N.lxor (wrap64 (N.shiftl n 1)) (asr63 n).
(** uint32(x<<1) ^ uint32(x>>31), e.g. encoder.go:322 *)
Definition zz32 (n : N) : N := N.lxor (wrap32 (N.shiftl n 1)) (asr31 n).

(** UnsafeAppendZigZag64, encoder.go:239-318 *)
Definition UnsafeAppendZigZag64 (b : bytes) (n : N) : bytes := varint_switch64 b (zz64 n).

(** UnsafeAppendZigZag32, encoder.go:320-349 (masks with 0x7f, unlike VarintU32) *)
Definition UnsafeAppendZigZag32 (b : bytes) (n : N) : bytes :=
  let v := zz32 n in
  if v <? 2^7 then b ++ [n2b v]
  else if v <? 2^14 then b ++ [c7 v 0; sh v 7]
  else if v <? 2^21 then b ++ [c7 v 0; c7 v 7; sh v 14]
  else if v <? 2^28 then b ++ [c7 v 0; c7 v 7; c7 v 14; sh v 21]
  else b ++ [c7 v 0; c7 v 7; c7 v 14; c7 v 21; sh v 28].

(** UnsafeAppendBool, encoder.go:351-353 *)
Definition UnsafeAppendBool (b : bytes) (n : N) : bytes := b ++ [n2b (N.land n 1)].

(** UnsafeAppendString = UnsafeAppendBytes, encoder.go:355-361 *)
Definition UnsafeAppendString (b : bytes) (s : bytes) : bytes :=
  AppendVarint b (blen s) ++ s.

(** UnsafeAppendFixed32, encoder.go:363-370; same bytes in protowire.AppendFixed32 *)
Definition fixed32_bytes (v : N) : bytes := [sh v 0; sh v 8; sh v 16; sh v 24].
Definition UnsafeAppendFixed32 (b : bytes) (n : N) : bytes := b ++ fixed32_bytes n.

(** UnsafeAppendFixed64, encoder.go:372-383; same bytes in protowire.AppendFixed64 *)
Definition fixed64_bytes (v : N) : bytes :=
  [sh v 0; sh v 8; sh v 16; sh v 24; sh v 32; sh v 40; sh v 48; sh v 56].
Definition UnsafeAppendFixed64 (b : bytes) (n : N) : bytes := b ++ fixed64_bytes n.

(** ** Sizes *)

(** protowire.SizeVarint, protowire/wire.go:370-374; bits.Len64 v = N.size v *)
Definition SizeVarint (v : N) : N := (9 * N.size v + 64) / 64.

(** protowire.SizeBytes, protowire/wire.go:448-450 *)
Definition SizeBytes (n : N) : N := SizeVarint n + n.

(** internal/wire/size.go:44-76 (and the value-level copies in size_map.go:37-50) *)
Definition SizeVarintU64 (n : N) : N := SizeVarint n.
Definition SizeVarintI32 (n : N) : N := SizeVarint (sext32 n).
Definition SizeVarintU32 (n : N) : N := SizeVarint n.
Definition SizeZigZag64 (n : N) : N := SizeVarint (zz64 n).
Definition SizeZigZag32 (n : N) : N := SizeVarint (zz32 n).
Definition SizeFixed32 (_ : N) : N := 4.
Definition SizeFixed64 (_ : N) : N := 8.
Definition SizeBool (_ : N) : N := 1.
Definition SizeString (s : bytes) : N := SizeBytes (blen s).

(** ** Length back-patching *)

(** LenReserve, encoder.go:387-389 *)
Definition LenReserve (b : bytes) : bytes := b ++ [x00].

(** lenPackSlow, encoder.go:400-410.  [copy(b[pos+m:], b[pos+1:])] moves
    [min(len(b)-(pos+m), len(b)-(pos+1))] bytes; [AppendVarint(b[pos:][:0], sz)]
    overwrites the buffer in place (its capacity suffices). *)
Definition lenPackSlow (b : bytes) (sz : nat) : bytes :=
  let m := N.to_nat (SizeVarint (N.of_nat sz)) in
  let b := b ++ repeat x00 (m - 1) in
  let pos := (length b - sz - m)%nat in
  let n := Nat.min (length b - (pos + m)) (length b - (pos + 1)) in
  let b := firstn (pos + m) b ++ firstn n (skipn (pos + 1) b) ++ skipn (pos + m + n) b in
  let w := pw_AppendVarint [] (N.of_nat sz) in
  firstn pos b ++ w ++ skipn (pos + length w) b.

(** LenPack, encoder.go:391-398 *)
Definition LenPack (b : bytes) (sz : nat) : bytes :=
  if N.of_nat sz <? 128
  then upd_nth (length b - 1 - sz) (n2b (N.of_nat sz)) b
  else lenPackSlow b sz.

(** ** Tags *)

(** uint64(num) for an int32 *)
Definition i32_u64 (num : Z) : N := Z.to_N (num mod 2^64).

(** wire.EncodeTag, internal/wire/wire.go:46-48 *)
Definition EncodeTag (num : Z) (t : N) : N :=
  N.lor (wrap64 (N.shiftl (i32_u64 num) 3)) t.

(** wire.ConsumeKVTag / wire.DecodeTag, internal/wire/wire.go:36-41,51-53.
    [None] stands for the returned (-1,-1). *)
Definition ConsumeKVTag (b : bytes) : option (N * N) :=
  match b with
  | b0 :: _ => if b2n b0 <? 0x80 then Some (N.shiftr (b2n b0) 3, N.land (b2n b0) 7) else None
  | [] => None
  end.

(** AppendKeyTag / AppendValTag, internal/wire/wire.go:56-63 *)
Definition AppendKeyTag (b : bytes) (t : N) : bytes := b ++ [n2b (N.lor (N.shiftl 1 3) t)].
Definition AppendValTag (b : bytes) (t : N) : bytes := b ++ [n2b (N.lor (N.shiftl 2 3) t)].

(** ** Consumers.  A negative count of the Go code is [Err code]; otherwise the value
    and the number of bytes consumed. *)

(** protowire.ConsumeVarint, protowire/wire.go:266-366 (unrolled as in the code) *)
Definition ConsumeVarint (b : bytes) : res (N * nat) :=
  match b with [] => Err ETruncated | b0 :: b =>
  let v := b2n b0 in
  if v <? 0x80 then Ok (v, 1%nat) else
  let v := v - 0x80 in
  match b with [] => Err ETruncated | b1 :: b =>
  let y := b2n b1 in let v := v + N.shiftl y 7 in
  if y <? 0x80 then Ok (v, 2%nat) else
  let v := v - N.shiftl 0x80 7 in
  match b with [] => Err ETruncated | b2 :: b =>
  let y := b2n b2 in let v := v + N.shiftl y 14 in
  if y <? 0x80 then Ok (v, 3%nat) else
  let v := v - N.shiftl 0x80 14 in
  match b with [] => Err ETruncated | b3 :: b =>
  let y := b2n b3 in let v := v + N.shiftl y 21 in
  if y <? 0x80 then Ok (v, 4%nat) else
  let v := v - N.shiftl 0x80 21 in
  match b with [] => Err ETruncated | b4 :: b =>
  let y := b2n b4 in let v := v + N.shiftl y 28 in
  if y <? 0x80 then Ok (v, 5%nat) else
  let v := v - N.shiftl 0x80 28 in
  match b with [] => Err ETruncated | b5 :: b =>
  let y := b2n b5 in let v := v + N.shiftl y 35 in
  if y <? 0x80 then Ok (v, 6%nat) else
  let v := v - N.shiftl 0x80 35 in
  match b with [] => Err ETruncated | b6 :: b =>
  let y := b2n b6 in let v := v + N.shiftl y 42 in
  if y <? 0x80 then Ok (v, 7%nat) else
  let v := v - N.shiftl 0x80 42 in
  match b with [] => Err ETruncated | b7 :: b =>
  let y := b2n b7 in let v := v + N.shiftl y 49 in
  if y <? 0x80 then Ok (v, 8%nat) else
  let v := v - N.shiftl 0x80 49 in
  match b with [] => Err ETruncated | b8 :: b =>
  let y := b2n b8 in let v := v + N.shiftl y 56 in
  if y <? 0x80 then Ok (v, 9%nat) else
  let v := v - N.shiftl 0x80 56 in
  match b with [] => Err ETruncated | b9 :: b =>
  let y := b2n b9 in let v := wrap64 (v + wrap64 (N.shiftl y 63)) in
  if y <? 2 then Ok (v, 10%nat) else Err EOverflow
  end end end end end end end end end end.

(** protowire.ConsumeFixed32, protowire/wire.go:387-393 *)
Definition ConsumeFixed32 (b : bytes) : res (N * nat) :=
  match b with
  | b0 :: b1 :: b2 :: b3 :: _ =>
      Ok (N.lor (N.shiftl (b2n b0) 0) (N.lor (N.shiftl (b2n b1) 8)
         (N.lor (N.shiftl (b2n b2) 16) (N.shiftl (b2n b3) 24))), 4%nat)
  | _ => Err ETruncated
  end.

(** protowire.ConsumeFixed64, protowire/wire.go:415-421 *)
Definition ConsumeFixed64 (b : bytes) : res (N * nat) :=
  match b with
  | b0 :: b1 :: b2 :: b3 :: b4 :: b5 :: b6 :: b7 :: _ =>
      Ok (N.lor (N.shiftl (b2n b0) 0) (N.lor (N.shiftl (b2n b1) 8)
         (N.lor (N.shiftl (b2n b2) 16) (N.lor (N.shiftl (b2n b3) 24)
         (N.lor (N.shiftl (b2n b4) 32) (N.lor (N.shiftl (b2n b5) 40)
         (N.lor (N.shiftl (b2n b6) 48) (N.shiftl (b2n b7) 56))))))), 8%nat)
  | _ => Err ETruncated
  end.

(** b[n:]: panics when n exceeds the length *)
Definition slice_from (b : bytes) (n : nat) : res bytes :=
  if (n <=? length b)%nat then Ok (skipn n b) else Panic.
(** b[:n] on a slice whose capacity is its length *)
Definition slice_to (b : bytes) (n : nat) : res bytes :=
  if (n <=? length b)%nat then Ok (firstn n b) else Panic.

(** protowire.ConsumeBytes, protowire/wire.go:435-444 *)
Definition ConsumeBytes (b : bytes) : res (bytes * nat) :=
  do (m, n) <- ConsumeVarint b;
  do r <- slice_from b n;
  if blen r <? m then Err ETruncated
  else do v <- slice_to r (N.to_nat m); Ok (v, (n + N.to_nat m)%nat).

(** protowire.DecodeTag + ConsumeTag, protowire/wire.go:167-177,500-506.
    The field number -1 (overflow) and 0 both give errCodeFieldNumber. *)
Definition ConsumeTag (b : bytes) : res (N * N * nat) :=
  do (v, n) <- ConsumeVarint b;
  if (2^31 - 1) <? N.shiftr v 3 then Err EFieldNumber
  else if N.shiftr v 3 <? 1 then Err EFieldNumber
  else Ok (N.shiftr v 3, N.land v 7, n).

(** protowire.DecodeZigZag, protowire/wire.go:517-519 (raw bits of the int64) *)
Definition DecodeZigZag (x : N) : N :=
  N.lxor (N.shiftr x 1) (asr63 (wrap64 (N.shiftl x 63))).

(** protowire.EncodeZigZag, protowire/wire.go:525-527 (raw bits of the int64) *)
Definition EncodeZigZag (x : N) : N := zz64 x.

(** protowire.DefaultRecursionLimit, protowire/wire.go:27 *)
Definition DefaultRecursionLimit : Z := 10000%Z.

(** The [for] loop of the StartGroup case, protowire/wire.go:133-152.  [rec] is
    consumeFieldValueD with one unit of fuel less; the result counts from [b]. *)
Fixpoint group_loop (rec : N -> N -> bytes -> Z -> res nat) (fuel : nat)
    (num : N) (b : bytes) (depth : Z) : res nat :=
  match fuel with
  | O => OutOfFuel
  | S fuel' =>
      do (num2, typ2, n) <- ConsumeTag b;
      do b1 <- slice_from b n;
      if typ2 =? WEGroup then
        if num =? num2 then Ok n else Err EEndGroup
      else
        do m <- rec num2 typ2 b1 (depth - 1)%Z;
        do b2 <- slice_from b1 m;
        do r <- group_loop rec fuel' num b2 depth;
        Ok (n + m + r)%nat
  end.

(** consumeFieldValueD, protowire/wire.go:115-158 *)
Fixpoint consumeFieldValueD (fuel : nat) (num typ : N) (b : bytes) (depth : Z) : res nat :=
  match fuel with
  | O => OutOfFuel
  | S fuel' =>
      if typ =? WVarint then do (_, n) <- ConsumeVarint b; Ok n
      else if typ =? WFixed32 then do (_, n) <- ConsumeFixed32 b; Ok n
      else if typ =? WFixed64 then do (_, n) <- ConsumeFixed64 b; Ok n
      else if typ =? WBytes then do (_, n) <- ConsumeBytes b; Ok n
      else if typ =? WSGroup then
        if (depth <? 0)%Z then Err ERecursionDepth
        else group_loop (consumeFieldValueD fuel') fuel' num b depth
      else if typ =? WEGroup then Err EEndGroup
      else Err EReserved
  end.

(** protowire.ConsumeFieldValue, protowire/wire.go:111-113 *)
Definition ConsumeFieldValue (num typ : N) (b : bytes) : res nat :=
  consumeFieldValueD (S (S (length b))) num typ b DefaultRecursionLimit.
