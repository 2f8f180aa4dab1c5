(** Proofs behind Props_Wire.v. *)
From Verif Require Import Base Wire WireSpec WireProofs WireConsume.
From Coq Require Import Lia ZifyBool ZifyNat ZifyN.
Open Scope N_scope.
Ltac Zify.zify_post_hook ::= Z.div_mod_to_equations.

(** All varint writers of the library. *)
Lemma varint_writers : forall b v, v < 2^64 ->
  pw_AppendVarint b v = b ++ varint v /\ AppendVarint b v = b ++ varint v /\
  AppendVarintSmall b v = b ++ varint v /\ UnsafeAppendVarintU64 b v = b ++ varint v /\
  (v < 2^32 -> UnsafeAppendVarintU32 b v = b ++ varint v).
Proof.
  intros b v H. repeat split; intros;
    auto using AppendVarint_spec, AppendVarintSmall_spec, varint_switch64_spec, varint_switch32_spec.
Qed.

Lemma varint_canonical : forall v bs, bs = varint v <-> canonical_varint v bs.
Proof.
  split; [intros ->; apply canonical_varint_varint|apply canonical_varint_unique].
Qed.

Lemma bool_writer : forall b n, n < 2 -> UnsafeAppendBool b n = b ++ varint n.
Proof.
  intros. unfold UnsafeAppendBool. rewrite varint_small by lia. f_equal. f_equal. f_equal.
  assert (n = 0 \/ n = 1) as [->| ->] by lia; reflexivity.
Qed.

Lemma varint_roundtrip : forall b v r, v < 2^64 ->
  exists n, skipn (length b) (AppendVarint b v ++ r) = varint v ++ r /\
    ConsumeVarint (skipn (length b) (AppendVarint b v ++ r)) = Ok (v, n) /\
    skipn n (skipn (length b) (AppendVarint b v ++ r)) = r.
Proof.
  intros. exists (length (varint v)). rewrite AppendVarint_spec, <- app_assoc, skipn_app_len.
  rewrite ConsumeVarint_varint by assumption. now rewrite skipn_app_len.
Qed.

Lemma fixed_roundtrip32 : forall v r, v < 2^32 -> ConsumeFixed32 (UnsafeAppendFixed32 [] v ++ r) = Ok (v, 4%nat).
Proof.
  intros. unfold UnsafeAppendFixed32. cbn [app]. rewrite fixed32_bytes_spec, ConsumeFixed32_app by apply le_bytes_length.
  now rewrite le_value_le_bytes.
Qed.
Lemma fixed_roundtrip64 : forall v r, v < 2^64 -> ConsumeFixed64 (UnsafeAppendFixed64 [] v ++ r) = Ok (v, 8%nat).
Proof.
  intros. unfold UnsafeAppendFixed64. cbn [app]. rewrite fixed64_bytes_spec, ConsumeFixed64_app by apply le_bytes_length.
  now rewrite le_value_le_bytes.
Qed.
Lemma zigzag_bijection : 
  (forall n, n < 2^64 -> zz64 n < 2^64 /\ zz64 n = zigzag (int64_of n) /\ DecodeZigZag (zz64 n) = n) /\
  (forall n, n < 2^32 -> zz32 n < 2^32 /\ zz32 n = zigzag (int32_of n) /\ wrap32 (DecodeZigZag (zz32 n)) = n) /\
  (forall n, n < 2^64 -> DecodeZigZag n < 2^64 /\ zz64 (DecodeZigZag n) = n).
Proof.
  repeat split; intros; auto using zz64_lt, zz64_spec, DecodeZigZag_zz64, zz32_lt, zz32_spec, DecodeZigZag_zz32.
  - now apply DecodeZigZag_spec.
  - destruct (DecodeZigZag_spec n H) as [H1 H2]. now rewrite zz64_spec.
Qed.
Lemma fixed_inv32 : forall bs, length bs = 4%nat ->
  exists v, v < 2^32 /\ ConsumeFixed32 bs = Ok (v, 4%nat) /\ UnsafeAppendFixed32 [] v = bs.
Proof.
  intros bs H. exists (le_value bs). pose proof (le_value_lt bs) as L. unfold blen in L. rewrite H in L.
  split; [exact L|]. split.
  - rewrite <- (app_nil_r bs) at 1. now apply ConsumeFixed32_app.
  - unfold UnsafeAppendFixed32. cbn [app]. rewrite fixed32_bytes_spec, <- H. apply le_bytes_le_value.
Qed.
Lemma fixed_inv64 : forall bs, length bs = 8%nat ->
  exists v, v < 2^64 /\ ConsumeFixed64 bs = Ok (v, 8%nat) /\ UnsafeAppendFixed64 [] v = bs.
Proof.
  intros bs H. exists (le_value bs). pose proof (le_value_lt bs) as L. unfold blen in L. rewrite H in L.
  split; [exact L|]. split.
  - rewrite <- (app_nil_r bs) at 1. now apply ConsumeFixed64_app.
  - unfold UnsafeAppendFixed64. cbn [app]. rewrite fixed64_bytes_spec, <- H. apply le_bytes_le_value.
Qed.

Lemma SizeVarint_exact : forall v, v < 2^64 ->
  SizeVarint v = blen (AppendVarint [] v) /\ 1 <= SizeVarint v <= 10 /\
  forall bs, valid_varint bs v -> SizeVarint v <= blen bs.
Proof.
  intros v H. rewrite AppendVarint_spec. cbn [app]. unfold blen. rewrite SizeVarint_spec by assumption.
  pose proof (varint_len10 v H) as L10. pose proof (varint_nonempty v) as NE.
  split; [reflexivity|]. split; [destruct (varint v); cbn [length] in *; [congruence|lia]|].
  intros bs (H1 & H2 & H3 & H4).
  assert (B : forall s, is_varint s = true -> varint_value s < 2^(7 * N.of_nat (length s))).
  { induction s as [|c s IH]; [discriminate|]. destruct s as [|c' s'].
    - intros _. cbn [varint_value length]. change (2 ^ (7 * N.of_nat 1)) with 128. lia.
    - intro I. rewrite is_varint_cons in I by discriminate. apply andb_prop in I as [_ I].
      specialize (IH I). set (s := c' :: s') in *. cbn [varint_value length].
      replace (7 * N.of_nat (S (length s))) with (7 + 7 * N.of_nat (length s)) by lia.
      rewrite N.pow_add_r. change (2^7) with 128.
      generalize dependent (2 ^ (7 * N.of_nat (length s))). intros. pose proof (N.mod_lt (b2n c) 128). lia. }
  specialize (B bs H1). rewrite H3 in B. destruct bs as [|c s]; [discriminate|].
  cbn [length] in *. apply varint_length_iff in B. lia.
Qed.

Lemma varint_reject : forall b, (forall s t v, b = s ++ t -> ~ valid_varint s v) <->
  exists e, ConsumeVarint b = Err e.
Proof.
  intro b. destruct (ConsumeVarint_no_panic b). destruct (ConsumeVarint b) as [[v n]|e| |] eqn:E; try congruence.
  - split; [|intros (e & ?); discriminate]. intro A. exfalso.
    apply ConsumeVarint_iff in E as (s & t & -> & _ & V). eapply A; eauto.
  - split; [intros _; eauto|]. intros _ s t v -> V.
    rewrite (ConsumeVarint_valid _ _ _ V) in E. discriminate.
Qed.

Lemma tag_roundtrip : forall num typ b r, (1 <= num < 2^31)%Z -> typ < 8 ->
  ConsumeTag (skipn (length b) (AppendVarintSmall b (EncodeTag num typ) ++ r)) =
    Ok (Z.to_N num, typ, length (tag (Z.to_N num) typ)) /\
  AppendVarintSmall b (EncodeTag num typ) = b ++ tag (Z.to_N num) typ.
Proof.
  intros. rewrite AppendVarintSmall_spec, EncodeTag_spec by lia. fold (tag (Z.to_N num) typ).
  rewrite <- app_assoc, skipn_app_len. split; [|reflexivity].
  eapply ConsumeTag_valid; [apply tag_valid; lia|reflexivity|lia|lia].
Qed.
