(** Further property theorems about decoding (specification: DecSpec), and the places where
    the code does not have the property: [.._refuted] gives an input on which it fails. *)
From Verif Require Import Base Wire WireSpec Value WireVal Coder MapTables Desc MsgSpec Encoder Sizer Decoder DecSpec DecFacts DecFacts2 DecFacts3 DecFacts4 PoolProofs FastMaps Sample SampleDec.
From Coq Require Import Init.Byte Lia.
Open Scope N_scope.

(** C06, decoding.  A varint of value [n] is accepted in every position of a 32 or 64-bit
    integer (singular, optional, oneof, list element, packed element, map key, map value;
    DecSpec.in_position) and stores [n mod 2^32], resp. [n]. *)
Theorem C06_decode_positions : forall E, wf_env E -> forall P id s u f k p n typ d slot slot' t,
  wt E (TStruct id) (VStruct s u) -> In f (sd_fields (E id)) -> nth_error s (f_slot f) = Some slot ->
  valid_varint t (8 * field_num f + typ) -> In k [Int32; Uint32; Int64; Uint64] -> valid_varint p n ->
  in_position E k p (match k with Int32 | Uint32 => n mod 2^32 | _ => n end) f typ d slot slot' ->
  exists u', Unmarshal E P (t ++ d) (APtr id (Some (VStruct s u))) = DOk (VStruct (upd_nth (f_slot f) slot' s) u') tt.
Proof. exact int_positions. Qed.
Print Assumptions C06_decode_positions.
(** 2^32 + 5 as key of field 9 and 2^64 - 1 in field 1 *)
Example C06_dec_ex : Unmarshal sample pool0 ([x4a; x08; x08; x85; x80; x80; x80; x10; x10; x01] ++
    [x08; xff; xff; xff; xff; xff; xff; xff; xff; xff; x01]) (APtr 0 (Some (sd_zero sample_desc))) =
  DOk (VStruct [VNum (2^32 - 1); VStr []; VPtr None; VSlice [] []; VSlice [] []; VMap None; VIface None;
    VMap (Some [(VNum 5, VNum 1)]); VSlice [] []; VBytes None] None) tt.
Proof. vm_compute. reflexivity. Qed.

(** C41.  False of the code: the varint 2 is false in a singular field, true in a packed list
    and in a map<bool, bool>, false again in a map<bool, int32>; and a packed list reads the
    overlong varint 0x80 0x01 (128) as two elements.  (bools_desc in Sample.) *)
Theorem C41_refuted : exists s g h m, 
  Unmarshal sample pool0 [x08; x02] (APtr 3 (Some (sd_zero bools_desc))) =
    DOk (VStruct [VNum 0; VSlice [] []; VSlice [] []; VMap None; VMap None; VMap None] s) tt /\
  Unmarshal sample pool0 [x1a; x01; x02] (APtr 3 (Some (sd_zero bools_desc))) =
    DOk (VStruct [VNum 0; VSlice [] []; VSlice [VNum 1] []; VMap None; VMap None; VMap None] g) tt /\
  Unmarshal sample pool0 [x22; x04; x08; x02; x10; x02] (APtr 3 (Some (sd_zero bools_desc))) =
    DOk (VStruct [VNum 0; VSlice [] []; VSlice [] []; VMap (Some [(VNum 1, VNum 1)]); VMap None; VMap None] h) tt /\
  Unmarshal sample pool0 [x32; x04; x08; x02; x10; x02] (APtr 3 (Some (sd_zero bools_desc))) =
    DOk (VStruct [VNum 0; VSlice [] []; VSlice [] []; VMap None; VMap None; VMap (Some [(VNum 0, VNum 2)])] m) tt /\
  Unmarshal sample pool0 [x1a; x02; x80; x01] (APtr 3 (Some (sd_zero bools_desc))) =
    DOk (VStruct [VNum 0; VSlice [] []; VSlice [VNum 1; VNum 1] []; VMap None; VMap None; VMap None] None) tt.
Proof. exists None, None, None, None. vm_compute. repeat split; reflexivity. Qed.
Print Assumptions C41_refuted.
(** What holds: the two encodings every protobuf writer emits, 0 and 1, are read alike in
    every position. *)
Theorem C41_canonical_partial : forall E, wf_env E -> forall P id s u f x typ d slot slot' t,
  wt E (TStruct id) (VStruct s u) -> In f (sd_fields (E id)) -> nth_error s (f_slot f) = Some slot ->
  valid_varint t (8 * field_num f + typ) -> x < 2 -> in_position E Bool [n2b x] x f typ d slot slot' ->
  exists u', Unmarshal E P (t ++ d) (APtr id (Some (VStruct s u))) = DOk (VStruct (upd_nth (f_slot f) slot' s) u') tt.
Proof. exact bool_positions. Qed.
Print Assumptions C41_canonical_partial.
Example C41_ex : Unmarshal sample pool0 [x08; x01; x1a; x02; x01; x00; x22; x04; x08; x01; x10; x01; x32; x04; x08; x01; x10; x02]
    (APtr 3 (Some (sd_zero bools_desc))) =
  DOk (VStruct [VNum 1; VSlice [] []; VSlice [VNum 1; VNum 0] []; VMap (Some [(VNum 1, VNum 1)]); VMap None;
                VMap (Some [(VNum 1, VNum 2)])] None) tt.
Proof. vm_compute. reflexivity. Qed.

(** C27.  The packed list readers: they return or fail, accept exactly the concatenations of
    elements and return them in order, and invert the encoding of every list. *)
Theorem C27_packed : forall tag k, scalar_ok tag k = true ->
  exists g, packedDecoderFuncs (getCoderType tag (RScalar k)) = Some g /\
    (forall b, (exists l, g b = Ok l) \/ (exists e, g b = Err e)) /\
    (forall b l, g b = Ok l <-> exists ps, b = concat ps /\ Forall2 (reads_scalar true tag k (tag_wtype tag)) ps l) /\
    (forall l, Forall (num_ok k) l -> g (concat (map (fun n => payload_of (scalar_den tag k n)) l)) = Ok l).
Proof. exact packed_exact. Qed.
Print Assumptions C27_packed.
(** The same for a whole message holding one packed list. *)
Theorem C27_packed_field : forall E, wf_env E -> forall P id s u f k slot t l ns, wt E (TStruct id) (VStruct s u) ->
  In f (sd_fields (E id)) -> f_T f = TSlice (TScalar k) -> f_packed f = true ->
  nth_error s (f_slot f) = Some slot -> valid_varint t (8 * field_num f + 2) -> Forall (num_ok k) ns ->
  let data := concat (map (fun n => payload_of (scalar_den (f_tag f) k n)) ns) in
  valid_varint l (blen data) ->
  exists u', Unmarshal E P (t ++ l ++ data) (APtr id (Some (VStruct s u))) =
    DOk (VStruct (upd_nth (f_slot f) (VSlice (map VNum ns) []) s) u') tt.
Proof. exact packed_field. Qed.
Print Assumptions C27_packed_field.
Example C27_ex : (forall tag k, In (tag, k) [(TagVarint, Int32); (TagZigZag64, Int64); (TagFixed32, Float32);
    (TagFixed64, Uint64); (TagVarint, Bool)] -> scalar_ok tag k = true) /\
  Forall (num_ok Int32) [1; 2^32 - 1] /\
  Unmarshal sample pool0 [x22; x0b; x01; xff; xff; xff; xff; xff; xff; xff; xff; xff; x01] (APtr 0 (Some (sd_zero sample_desc))) =
  DOk (VStruct [VNum 0; VStr []; VPtr None; VSlice [VNum 1; VNum (2^32 - 1)] []; VSlice [] []; VMap None; VIface None;
    VMap None; VSlice [] []; VBytes None] None) tt.
Proof.
  split; [|split; [|vm_compute; reflexivity]].
  - intros tag k [[= <- <-]|[[= <- <-]|[[= <- <-]|[[= <- <-]|[[= <- <-]|[]]]]]]; reflexivity.
  - repeat constructor; discriminate.
Qed.

(** C37.  False of the code: a packed record of a field declared unpacked is rejected (field
    10), and of two packed chunks only the second is kept (field 4). *)
Theorem C37_refuted : 
  (exists v', Unmarshal sample pool0 [x52; x04; x01; x00; x00; x00] (APtr 0 (Some (sd_zero sample_desc))) = DErr v' EWireType) /\
  Unmarshal sample pool0 [x22; x01; x01; x22; x01; x02] (APtr 0 (Some (sd_zero sample_desc))) =
  DOk (VStruct [VNum 0; VStr []; VPtr None; VSlice [VNum 2] []; VSlice [] []; VMap None; VIface None;
    VMap None; VSlice [] []; VBytes None] None) tt.
Proof. split; [eexists|]; vm_compute; reflexivity. Qed.
Print Assumptions C37_refuted.
(** What holds: a field declared packed accepts both forms; the result is the last packed
    chunk followed by the unpacked elements after it. *)
Theorem C37_mixed_partial : forall E, wf_env E -> forall P id b s u v' rs1 r rs2 f k, wt E (TStruct id) (VStruct s u) ->
  wire_records b (rs1 ++ r :: rs2) -> Unmarshal E P b (APtr id (Some (VStruct s u))) = DOk v' tt ->
  In f (sd_fields (E id)) -> f_T f = TSlice (TScalar k) -> f_packed f = true ->
  of_field f r = true -> w_typ r = 2 -> (forall r', In r' rs2 -> of_field f r' = true -> w_typ r' <> 2) ->
  exists s' u' l ps ns xs sp', v' = VStruct s' u' /\ nth_error s' (f_slot f) = Some (VSlice (map VNum ns ++ xs) sp') /\
    w_data r = l ++ concat ps /\ valid_varint l (blen (concat ps)) /\
    Forall2 (reads_scalar true (f_tag f) k (tag_wtype (f_tag f))) ps ns /\
    Forall2 (fun r x => reads E 1000 false (f_tag f) (TScalar k) (w_typ r) (w_data r) (unset E (TScalar k)) x)
      (filter (of_field f) rs2) xs.
Proof. exact packed_then_unpacked. Qed.
Print Assumptions C37_mixed_partial.
(** chunk [1], chunk [2; 3], element 4, element 5 *)
Example C37_ex : let input := [x22; x01; x01; x22; x02; x02; x03; x20; x04; x20; x05] in
  wire_records input [mkW 4 2 [x22] [x01; x01]; mkW 4 2 [x22] [x02; x02; x03]; mkW 4 0 [x20] [x04]; mkW 4 0 [x20] [x05]] /\
  exists sp, Unmarshal sample pool0 input (APtr 0 (Some (sd_zero sample_desc))) =
  DOk (VStruct [VNum 0; VStr []; VPtr None; VSlice [VNum 2; VNum 3; VNum 4; VNum 5] sp; VSlice [] []; VMap None; VIface None;
    VMap None; VSlice [] []; VBytes None] None) tt.
Proof.
  split; [|eexists; vm_compute; reflexivity]. split; [|reflexivity].
  repeat (constructor; [split; [vv|]; split; [reflexivity|]; split; [cbn; lia|]; cbn [w_num w_typ w_data]; exists O|]); [| | | |constructor].
  - apply (PBytes 4 [x01] [x01] 1); vv.
  - apply (PBytes 4 [x02] [x02; x03] 2); vv.
  - econstructor; vv.
  - econstructor; vv.
Qed.

(** C38.  False of the code: entries with the value first, with a missing value, with a
    missing key, with an unknown field before the value, or empty, are rejected, on the
    specialised path (field 9, map<int32, int64>) and on the generic one (field 6). *)
Theorem C38_refuted : forall b, In b
   [[x4a; x04; x10; x01; x08; x03]; [x4a; x02; x08; x03]; [x4a; x02; x10; x01];
    [x4a; x06; x08; x03; x18; x00; x10; x01]; [x4a; x00];
    [x32; x05; x12; x00; x0a; x01; x61]; [x32; x03; x0a; x01; x61]; [x32; x02; x12; x00];
    [x32; x07; x0a; x01; x61; x18; x00; x12; x00]; [x32; x00]] ->
  exists v' e, Unmarshal sample pool0 b (APtr 0 (Some (sd_zero sample_desc))) = DErr v' e.
Proof. intros b H. cbn [In] in H. repeat (destruct H as [<-|H]; [eexists _, _; vm_compute; reflexivity|]). destruct H. Qed.
Print Assumptions C38_refuted.
(** What holds: a key, then a value, then anything, is accepted and stored. *)
Theorem C38_ordered_partial : forall E, wf_env E -> forall P id s u f kt vt m t l c1 t1 p1 c2 t2 p2 junk k v, 
  wt E (TStruct id) (VStruct s u) ->
  In f (sd_fields (E id)) -> f_T f = TMap kt vt -> nth_error s (f_slot f) = Some (VMap m) ->
  valid_varint t (8 * field_num f + 2) ->
  let e := [c1] ++ p1 ++ [c2] ++ p2 ++ junk in
  valid_varint l (blen e) -> b2n c1 = 8 * 1 + t1 -> t1 < 8 -> b2n c2 = 8 * 2 + t2 -> t2 < 8 ->
  reads E 1000 (raw_bools kt vt (f_vtag f)) (f_ktag f) kt t1 p1 VUninit k ->
  reads E 999 (raw_bools kt vt (f_vtag f)) (f_vtag f) vt t2 p2 (unset E vt) v ->
  exists u', Unmarshal E P (t ++ l ++ e) (APtr id (Some (VStruct s u))) =
    DOk (VStruct (upd_nth (f_slot f) (VMap (Some (put_entry m k v))) s) u') tt.
Proof. exact ordered_entry. Qed.
Print Assumptions C38_ordered_partial.
Example C38_ex : Unmarshal sample pool0 [x4a; x06; x08; x03; x10; x01; x18; x00] (APtr 0 (Some (sd_zero sample_desc))) =
  DOk (VStruct [VNum 0; VStr []; VPtr None; VSlice [] []; VSlice [] []; VMap None; VIface None;
    VMap (Some [(VNum 3, VNum 1)]); VSlice [] []; VBytes None] None) tt.
Proof. vm_compute. reflexivity. Qed.

(** C43.  False of the code: two occurrences of Inner.next, first a = 7 then next.next = {},
    leave only the second; a single occurrence of the concatenation has both. *)
Theorem C43_refuted : 
  Unmarshal sample pool0 ([x12; x02; x08; x07] ++ [x12; x02; x12; x00]) (APtr 1 (Some (sd_zero inner_desc))) =
    DOk (VStruct [VNum 0; VPtr (Some (VStruct [VNum 0; VPtr (Some (VStruct [VNum 0; VPtr None] None))] None))] None) tt /\
  Unmarshal sample pool0 [x12; x04; x08; x07; x12; x00] (APtr 1 (Some (sd_zero inner_desc))) =
    DOk (VStruct [VNum 0; VPtr (Some (VStruct [VNum 7; VPtr (Some (VStruct [VNum 0; VPtr None] None))] None))] None) tt.
Proof. split; vm_compute; reflexivity. Qed.
Print Assumptions C43_refuted.
(** What holds: for a message held by value (gogoproto non-nullable) without unknown-field
    storage, two adjacent occurrences are the same as one with the concatenated contents. *)
Theorem C43_by_value_partial : forall E, wf_env E -> forall P id v v' rs1 t1 l1 s1 t2 l2 s2 t l rs2 f id' q1 q2, 
  wt E (TStruct id) v ->
  In f (sd_fields (E id)) -> f_oneof f = None -> f_T f = TStruct id' -> sd_unknown (E id') = false ->
  wire_records s1 q1 -> wire_records s2 q2 ->
  let r1 := mkW (field_num f) 2 t1 (l1 ++ s1) in let r2 := mkW (field_num f) 2 t2 (l2 ++ s2) in
  let r := mkW (field_num f) 2 t (l ++ s1 ++ s2) in
  valid_varint l1 (blen s1) -> valid_varint l2 (blen s2) -> valid_varint l (blen (s1 ++ s2)) ->
  Forall wf_wrec (rs1 ++ r1 :: r2 :: rs2) -> wf_wrec r ->
  (Unmarshal E P (concat (map w_raw (rs1 ++ r1 :: r2 :: rs2))) (APtr id (Some v)) = DOk v' tt <->
   Unmarshal E P (concat (map w_raw (rs1 ++ r :: rs2))) (APtr id (Some v)) = DOk v' tt).
Proof. exact nested_merge. Qed.
Print Assumptions C43_by_value_partial.
(** Outer.t occurs twice, with l += {a: 1} and l += {a: 2} *)
Example C43_ex : 
  let r1 := mkW 1 2 [x0a] ([x04] ++ [x1a; x02; x08; x01]) in let r2 := mkW 1 2 [x0a] ([x04] ++ [x1a; x02; x08; x02]) in
  let r := mkW 1 2 [x0a] ([x08] ++ [x1a; x02; x08; x01] ++ [x1a; x02; x08; x02]) in
  wt sample (TStruct 5) (sd_zero outer_desc) /\ Forall wf_wrec [r1; r2; r] /\
  exists v', Unmarshal sample pool0 (w_raw r1 ++ w_raw r2) (APtr 5 (Some (sd_zero outer_desc))) = DOk v' tt /\
             Unmarshal sample pool0 (w_raw r) (APtr 5 (Some (sd_zero outer_desc))) = DOk v' tt.
Proof.
  split; [unfold wt; cbn; tauto|]. split; [|eexists; split; vm_compute; reflexivity].
  repeat (constructor; [split; [vv|]; split; [reflexivity|]; split; [cbn; lia|]; exists O; cbn [w_num w_typ w_data]; econstructor; vv|]); constructor.
Qed.

(** C14, why elements held by value are excluded: spare capacity of a []Inner left over from
    earlier use is merged into, not cleared.  Decoding one empty element into a slice of
    length 0 whose spare element has a = 9 gives an element with a = 9. *)
Theorem C14_stale_refuted : let v := VStruct [VPtr None; VMap None; VSlice [] [VStruct [VNum 9; VPtr None] None]] None in
  wt sample (TStruct 4) v /\
  Unmarshal sample pool0 [x1a; x00] (APtr 4 (Some v)) =
    DOk (VStruct [VPtr None; VMap None; VSlice [VStruct [VNum 9; VPtr None] None] []] None) tt.
Proof. split; [unfold wt; cbn; unfold num_ok; cbn; repeat split; auto; try discriminate; try lia|vm_compute; reflexivity]. Qed.
Print Assumptions C14_stale_refuted.

(** C08.  False of the code: messages nested through map values escape the limit (the depth
    goes down by two per level and is only compared with zero), so inputs of any depth are
    accepted. *)
Theorem C08_refuted : forall n P, N.of_nat n < 2^50 ->
  exists b v', nests sample true (S n) 4 b /\ Unmarshal sample P b (APtr 4 (Some tree0)) = DOk v' tt.
Proof. exact unbounded_nesting. Qed.
Print Assumptions C08_refuted.
(** What holds: an input with more than 1000 messages nested in fields and lists is
    rejected. *)
Theorem C08_limit_partial : forall E, wf_env E -> forall P id b v, wt E (TStruct id) v -> nests E false 1001 id b ->
  exists v' e, Unmarshal E P b (APtr id (Some v)) = DErr v' e.
Proof. exact decode_limit. Qed.
Print Assumptions C08_limit_partial.
Example C08_ex : nests sample false 1001 1 (innerb 1000) /\
  match Unmarshal sample pool0 (innerb 1000) (APtr 1 (Some (sd_zero inner_desc))) with DErr _ EMaxDepth => True | _ => False end /\
  match Unmarshal sample pool0 (innerb 999) (APtr 1 (Some (sd_zero inner_desc))) with DOk _ _ => True | _ => False end.
Proof. split; [apply innerb_nests; vm_compute; reflexivity|]. vm_compute. split; exact I. Qed.

(** C11, re-emission: Marshal appends the stored unknown fields after the known ones. *)
Theorem C11_reemitted : forall E, wf_env E -> forall id s u out, wt E (TStruct id) (VStruct s u) ->
  Marshal E (APtr id (Some (VStruct s u))) = Ok out -> blen out < 2^63 ->
  exists known, Marshal E (APtr id (Some (VStruct s None))) = Ok known /\ out = known ++ unk_bytes u.
Proof. exact reemitted. Qed.
Print Assumptions C11_reemitted.
Example C11_re_ex : Marshal sample (APtr 1 (Some inner_val)) =
  Ok ([x08; xfb; xff; xff; xff; xff; xff; xff; xff; xff; x01; x12; x02; x08; x07] ++ [x7a; x00]).
Proof. vm_compute. reflexivity. Qed.

(** C28.  Encoding and sizing: with a specialised function the result is that of the
    reflective loop, and so is it for the specialised iterations of AppendMapField and
    sizeMapField.  [wtg E Q false] are the values of the type. *)
Theorem C28_append : forall E Q f kt vt v b rec, f_T f = TMap kt vt -> supported f = true -> wtg E Q false (TMap kt vt) v ->
  (forall row, getAppendMapFunc f = Some row -> AppendMap row b (WireTag f) v = AppendMapGeneric rec f b v) /\
  AppendMapField rec f b v = AppendMapGeneric rec f b v.
Proof. intros E Q f kt vt v b rec T S W. split; [intros row R; now apply (fast_append E Q f kt vt)|now apply (typed_append E Q f kt vt)]. Qed.
Print Assumptions C28_append.
Theorem C28_size : forall E Q f kt vt v rec, f_T f = TMap kt vt -> supported f = true -> wtg E Q false (TMap kt vt) v ->
  (forall row, getSizeMapFunc f = Some row -> SizeMap row v (WireTagSize f) = sizeMapGeneric rec f v) /\
  (getSizeMapFunc f = None -> sizeMapField rec f v = sizeMapGeneric rec f v).
Proof. intros E Q f kt vt v rec T S W. split; [intros row R; now apply (fast_size E Q f kt vt)|now apply (typed_size E Q f kt vt)]. Qed.
Print Assumptions C28_size.
(** Decoding: the specialised reader of an entry accepts the same entries as DecodeMapPair
    and stores the same pair, if neither key nor value is a bool ... *)
Theorem C28_decode_partial : forall E f kt vt row rec D b m tmp, f_T f = TMap kt vt -> supported f = true ->
  getMapDecodeFunc f = Some row -> kt <> TScalar Bool -> vt <> TScalar Bool ->
  match DecodeMapKV row b with
  | Ok (k, v) => exists tmp', DecodeMapPair E rec f kt vt D b (VMap m) tmp = DOk (VMap (Some (put_entry m k v))) tmp'
  | Err _ => exists m' e, DecodeMapPair E rec f kt vt D b (VMap m) tmp = DErr (VMap m') e
  | _ => False
  end.
Proof. exact (fun E => fast_decode E anyQ). Qed.
Print Assumptions C28_decode_partial.
(** ... and not otherwise: a key 2 of a map<bool, bool> is true for the specialised reader
    and false for the generic one. *)
Theorem C28_bool_refuted : let f := mkF 4 3 TagBytes true false TagVarint TagVarint (TMap (TScalar Bool) (TScalar Bool)) None in
  supported f = true /\ exists row tmp', getMapDecodeFunc f = Some row /\
  DecodeMapKV row [x08; x02; x10; x02] = Ok (VNum 1, VNum 1) /\ forall rec,
  DecodeMapPair sample rec f (TScalar Bool) (TScalar Bool) 1000 [x08; x02; x10; x02] (VMap None) (VUninit, VUninit) =
    DOk (VMap (Some [(VNum 0, VNum 0)])) tmp'.
Proof.
  split; [reflexivity|]. eexists _, _. split; [vm_compute; reflexivity|]. split; [vm_compute; reflexivity|].
  intro rec. vm_compute. reflexivity.
Qed.
Print Assumptions C28_bool_refuted.
Example C28_ex : let f := mkF 9 7 TagBytes true false TagVarint TagVarint (TMap (TScalar Uint32) (TScalar Int64)) None in
  (exists r1 r2 r3, getAppendMapFunc f = Some r1 /\ getSizeMapFunc f = Some r2 /\ getMapDecodeFunc f = Some r3 /\
    AppendMap r1 [] (WireTag f) (VMap (Some [(VNum 3, VNum 300); (VNum (2^32 - 3), VNum 0)])) =
    Ok [x4a; x05; x08; x03; x10; xac; x02; x4a; x08; x08; xfd; xff; xff; xff; x0f; x10; x00]) /\
  supported f = true.
Proof. split; [|reflexivity]. eexists _, _, _. split; [reflexivity|]. split; [reflexivity|]. split; [reflexivity|]. vm_compute. reflexivity. Qed.

(** C53, decoder: whatever the pooled temporaries contain, the outcome - value, error and
    what a failed call leaves in the target - is the same. *)
Theorem C53_decoder_pools : forall E, wf_env E -> forall P1 P2 b a, Unmarshal E P1 b a = Unmarshal E P2 b a.
Proof. exact Unmarshal_indep. Qed.
Print Assumptions C53_decoder_pools.
Example C53_ex : exists (P1 P2 : pool) x y, P1 x y <> P2 x y /\
  Unmarshal sample P1 sample_input (APtr 0 (Some sample_val)) = DOk sample_result tt.
Proof. exists pool0, (fun _ _ => (VNum 7, sample_val)), [], (mkF 4 3 TagBytes true false TagVarint TagVarint (TMap (TScalar Bool) (TScalar Bool)) None). split; [discriminate|exact sample_decodes]. Qed.
