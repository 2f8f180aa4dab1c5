(** Property theorems about the wire primitives. *)
From Verif Require Import Base Wire WireSpec WireProofs WireConsume WireFacts.
From Coq Require Import Init.Byte.
Open Scope N_scope.

(** C23: every varint writer of the library writes the canonical varint... *)
Theorem C23_varint_writers : forall b v, v < 2^64 ->
  pw_AppendVarint b v = b ++ varint v /\ AppendVarint b v = b ++ varint v /\
  AppendVarintSmall b v = b ++ varint v /\ UnsafeAppendVarintU64 b v = b ++ varint v /\
  (v < 2^32 -> UnsafeAppendVarintU32 b v = b ++ varint v).
Proof. exact varint_writers. Qed.
Print Assumptions C23_varint_writers.
(** ... where [varint v] is the one minimal base-128 string of value [v] ... *)
Theorem C23_varint_canonical : forall v bs, bs = varint v <-> canonical_varint v bs.
Proof. exact varint_canonical. Qed.
Print Assumptions C23_varint_canonical.
(** ... and reading it back, in front of any other bytes, returns the value and leaves
    the other bytes. *)
Theorem C23_varint_roundtrip : forall b v r, v < 2^64 ->
  exists n, skipn (length b) (AppendVarint b v ++ r) = varint v ++ r /\
    ConsumeVarint (skipn (length b) (AppendVarint b v ++ r)) = Ok (v, n) /\
    skipn n (skipn (length b) (AppendVarint b v ++ r)) = r.
Proof. exact varint_roundtrip. Qed.
Print Assumptions C23_varint_roundtrip.
Theorem C23_zigzag_writers :
  (forall b n, n < 2^64 -> UnsafeAppendZigZag64 b n = b ++ varint (zigzag (int64_of n))) /\
  (forall b n, n < 2^32 -> UnsafeAppendZigZag32 b n = b ++ varint (zigzag (int32_of n))).
Proof. exact (conj AppendZigZag64_spec AppendZigZag32_spec). Qed.
Print Assumptions C23_zigzag_writers.
(** ZigZag is a bijection of the 64-bit (32-bit) words and DecodeZigZag is its inverse. *)
Theorem C23_zigzag_bijection :
  (forall n, n < 2^64 -> zz64 n < 2^64 /\ zz64 n = zigzag (int64_of n) /\ DecodeZigZag (zz64 n) = n) /\
  (forall n, n < 2^32 -> zz32 n < 2^32 /\ zz32 n = zigzag (int32_of n) /\ wrap32 (DecodeZigZag (zz32 n)) = n) /\
  (forall n, n < 2^64 -> DecodeZigZag n < 2^64 /\ zz64 (DecodeZigZag n) = n).
Proof. exact zigzag_bijection. Qed.
Print Assumptions C23_zigzag_bijection.
Theorem C23_fixed32 : (forall v r, v < 2^32 -> ConsumeFixed32 (UnsafeAppendFixed32 [] v ++ r) = Ok (v, 4%nat)) /\
  (forall bs, length bs = 4%nat ->
    exists v, v < 2^32 /\ ConsumeFixed32 bs = Ok (v, 4%nat) /\ UnsafeAppendFixed32 [] v = bs).
Proof. exact (conj fixed_roundtrip32 fixed_inv32). Qed.
Print Assumptions C23_fixed32.
Theorem C23_fixed64 : (forall v r, v < 2^64 -> ConsumeFixed64 (UnsafeAppendFixed64 [] v ++ r) = Ok (v, 8%nat)) /\
  (forall bs, length bs = 8%nat ->
    exists v, v < 2^64 /\ ConsumeFixed64 bs = Ok (v, 8%nat) /\ UnsafeAppendFixed64 [] v = bs).
Proof. exact (conj fixed_roundtrip64 fixed_inv64). Qed.
Print Assumptions C23_fixed64.
(** Fixed-width writers are little endian. *)
Theorem C23_fixed_little_endian :
  (forall v, fixed32_bytes v = le_bytes 4 v) /\ (forall v, fixed64_bytes v = le_bytes 8 v).
Proof. exact (conj fixed32_bytes_spec fixed64_bytes_spec). Qed.
Print Assumptions C23_fixed_little_endian.
Theorem C23_bool : forall b n, n < 2 -> UnsafeAppendBool b n = b ++ varint n.
Proof. exact bool_writer. Qed.
Print Assumptions C23_bool.
Theorem C23_tag_roundtrip : forall num typ b r, (1 <= num < 2^31)%Z -> typ < 8 ->
  ConsumeTag (skipn (length b) (AppendVarintSmall b (EncodeTag num typ) ++ r)) =
    Ok (Z.to_N num, typ, length (tag (Z.to_N num) typ)) /\
  AppendVarintSmall b (EncodeTag num typ) = b ++ tag (Z.to_N num) typ.
Proof. exact tag_roundtrip. Qed.
Print Assumptions C23_tag_roundtrip.
Example C23_ex : AppendVarint [xff] 300 = [xff; xac; x02] /\ 300 < 2^64 /\
  UnsafeAppendZigZag32 [] (2^32 - 2) = [x03] /\ UnsafeAppendFixed32 [] 258 = [x02; x01; x00; x00] /\
  ConsumeTag [x92; x03; x00] = Ok (50, 2, 2%nat).
Proof. repeat split; vm_compute; reflexivity. Qed.

(** C06 (wire level): a negative int32 is written as its 64-bit sign extension. *)
Theorem C06_int32_writer : forall b v, v < 2^32 ->
  UnsafeAppendVarintI32 b v = b ++ varint (u64_of (int32_of v)).
Proof. exact AppendVarintI32_spec. Qed.
Print Assumptions C06_int32_writer.
Example C06_ex : UnsafeAppendVarintI32 [] (2^32 - 1) =
  [xff; xff; xff; xff; xff; xff; xff; xff; xff; x01] /\ u64_of (int32_of (2^32-1)) = 2^64 - 1.
Proof. split; vm_compute; reflexivity. Qed.

(** C24 *)
Theorem C24_SizeVarint : forall v, v < 2^64 ->
  SizeVarint v = blen (AppendVarint [] v) /\ 1 <= SizeVarint v <= 10 /\
  forall bs, valid_varint bs v -> SizeVarint v <= blen bs.
Proof. exact SizeVarint_exact. Qed.
Print Assumptions C24_SizeVarint.
Example C24_ex : SizeVarint (2^64 - 1) = 10 /\ SizeVarint 127 = 1 /\ SizeVarint 128 = 2.
Proof. repeat split; vm_compute; reflexivity. Qed.

(** C25: skipping an unknown record.  [payload] is the wire grammar of WireSpec.  The
    effective limit is 10001 nested groups (the code's constant 10000 counts from 0). *)
Theorem C25_skip_unknown : forall num typ b n,
  ConsumeFieldValue num typ b = Ok n <->
  exists p t d, b = p ++ t /\ length p = n /\ payload num typ p d /\ N.of_nat d <= 10001.
Proof. exact ConsumeFieldValue_iff. Qed.
Print Assumptions C25_skip_unknown.
Theorem C25_skip_safe : forall num typ b,
  ConsumeFieldValue num typ b <> Panic /\ ConsumeFieldValue num typ b <> OutOfFuel.
Proof. exact ConsumeFieldValue_safe. Qed.
Print Assumptions C25_skip_safe.
(** The grammar is unambiguous: what is skipped is determined by the input. *)
Theorem C25_self_delimiting : forall num typ p1 d1 t1 p2 d2 t2,
  payload num typ p1 d1 -> payload num typ p2 d2 -> p1 ++ t1 = p2 ++ t2 -> p1 = p2 /\ t1 = t2.
Proof. exact payload_prefix_unique. Qed.
Print Assumptions C25_self_delimiting.
Example C25_ex : ConsumeFieldValue 1 3 [x13; x08; x07; x14; x0c; xaa] = Ok 5%nat /\
  ConsumeFieldValue 1 3 [x13; x08; x07; x0c] = Err EEndGroup /\
  ConsumeFieldValue 1 6 [x00] = Err EReserved.
Proof. repeat split; vm_compute; reflexivity. Qed.

(** C26 *)
Theorem C26_LenPack : forall pre body, blen body < 2^64 ->
  LenPack (LenReserve pre ++ body) (length body) = pre ++ lendelim body.
Proof. exact LenPack_spec. Qed.
Print Assumptions C26_LenPack.
Example C26_ex : LenPack (LenReserve [xaa] ++ repeat x07 200) 200 = [xaa; xc8; x01] ++ repeat x07 200.
Proof. vm_compute. reflexivity. Qed.

(** C36: the reader accepts exactly the base-128 strings of at most ten bytes with a
    64-bit value, minimal or not, and returns that value. *)
Theorem C36_overlong_varints : forall b v n,
  ConsumeVarint b = Ok (v, n) <->
  exists s t, b = s ++ t /\ length s = n /\ valid_varint s v.
Proof. exact ConsumeVarint_iff. Qed.
Print Assumptions C36_overlong_varints.
Theorem C36_rejected : forall b, (forall s t v, b = s ++ t -> ~ valid_varint s v) <->
  exists e, ConsumeVarint b = Err e.
Proof. exact varint_reject. Qed.
Print Assumptions C36_rejected.
Example C36_ex : ConsumeVarint [x81; x80; x00; x55] = Ok (1, 3%nat) /\ valid_varint [x81; x80; x00] 1 /\
  ConsumeVarint (repeat xff 9 ++ [x02]) = Err EOverflow.
Proof. split; [|split]; [vm_compute; reflexivity| |vm_compute; reflexivity].
  unfold valid_varint. repeat split; try (vm_compute; reflexivity). cbn. repeat constructor. Qed.
