(** Proofs about the wire-level model against WireSpec. *)
From Verif Require Import Base Wire WireSpec.
From Coq Require Import Init.Byte.
From Coq Require Import Lia ZifyBool ZifyNat ZifyN.
Open Scope N_scope.
Ltac Zify.zify_post_hook ::= Z.div_mod_to_equations.
Arguments N.add : simpl never.
Arguments N.mul : simpl never.
Arguments N.div : simpl never.
Arguments N.modulo : simpl never.
Arguments N.sub : simpl never.
Arguments N.pow : simpl never.
Arguments N.size_nat : simpl never.
Arguments N.shiftr : simpl never.
Arguments N.shiftl : simpl never.
Arguments N.lor : simpl never.
Arguments N.land : simpl never.
Arguments N.ltb : simpl never.
Arguments N.leb : simpl never.
Arguments n2b : simpl never.
Arguments b2n : simpl never.

(** ** Bytes *)
Lemma b2n_lt : forall b, b2n b < 256.
Proof. intro b. unfold b2n. pose proof (Byte.to_N_bounded b). lia. Qed.

Lemma b2n_n2b : forall n, b2n (n2b n) = n mod 256.
Proof.
  intro n. unfold b2n, n2b.
  destruct (Byte.of_N (n mod 256)) eqn:E.
  - now apply Byte.to_of_N.
  - apply Byte.of_N_None_iff in E. lia.
Qed.

Lemma n2b_b2n : forall b, n2b (b2n b) = b.
Proof.
  intro b. unfold b2n, n2b. rewrite N.mod_small by apply b2n_lt.
  now rewrite Byte.of_to_N.
Qed.

Lemma b2n_inj : forall a b, b2n a = b2n b -> a = b.
Proof. intros a b H. rewrite <- (n2b_b2n a), <- (n2b_b2n b). now rewrite H. Qed.

Lemma n2b_mod : forall n, n2b (n mod 256) = n2b n.
Proof. intros. apply b2n_inj. rewrite !b2n_n2b. now rewrite N.mod_mod by discriminate. Qed.

Lemma n2b_ext : forall a b, a mod 256 = b mod 256 -> n2b a = n2b b.
Proof. intros. apply b2n_inj. now rewrite !b2n_n2b. Qed.

(** Exhaustive check over one byte, used for the bit tricks. *)
Lemma byte_sweep : forall (P : N -> bool),
  forallb P (map N.of_nat (seq 0 256)) = true -> forall x, x < 256 -> P x = true.
Proof.
  intros P H x Hx. rewrite forallb_forall in H. apply H.
  apply in_map_iff. exists (N.to_nat x). split; [lia|]. apply in_seq. lia.
Qed.

Lemma lor_mod_pow2 : forall a b k, (N.lor a b) mod 2^k = N.lor (a mod 2^k) (b mod 2^k).
Proof.
  intros. apply N.bits_inj. intro i. rewrite N.lor_spec.
  destruct (N.lt_ge_cases i k).
  - rewrite !N.mod_pow2_bits_low by lia. now rewrite N.lor_spec.
  - rewrite !N.mod_pow2_bits_high by lia. reflexivity.
Qed.

Lemma c7_mod : forall x, (N.lor (N.land x 0x7f) 0x80) mod 256 = x mod 128 + 128.
Proof.
  intro x. change 0x7f with (N.ones 7). rewrite N.land_ones. change (2^7) with 128.
  assert (H : x mod 128 < 256) by lia.
  assert (E : (N.lor (x mod 128) 128 mod 256 =? (x mod 128) mod 128 + 128) = true).
  { apply (byte_sweep (fun y => N.lor y 128 mod 256 =? y mod 128 + 128)); [vm_compute; reflexivity|assumption]. }
  apply N.eqb_eq in E. rewrite E. rewrite N.mod_mod by discriminate. reflexivity.
Qed.

Lemma c8_mod : forall x, (N.lor x 0x80) mod 256 = x mod 128 + 128.
Proof.
  intro x. change 256 with (2^8). rewrite lor_mod_pow2. change (2^8) with 256.
  assert (H : x mod 256 < 256) by lia.
  assert (E : (N.lor (x mod 256) (128 mod 256) =? (x mod 256) mod 128 + 128) = true).
  { apply (byte_sweep (fun y => N.lor y (128 mod 256) =? y mod 128 + 128)); [vm_compute; reflexivity|assumption]. }
  apply N.eqb_eq in E. rewrite E. f_equal. lia.
Qed.

Lemma c7_n2b : forall v k, c7 v k = n2b ((v / 2^k) mod 128 + 128).
Proof.
  intros. unfold c7. rewrite N.shiftr_div_pow2. apply n2b_ext. rewrite c7_mod. lia.
Qed.
Lemma c8_n2b : forall v k, c8 v k = n2b ((v / 2^k) mod 128 + 128).
Proof.
  intros. unfold c8. rewrite N.shiftr_div_pow2. apply n2b_ext. rewrite c8_mod. lia.
Qed.
Lemma sh_n2b : forall v k, sh v k = n2b (v / 2^k).
Proof. intros. unfold sh. now rewrite N.shiftr_div_pow2. Qed.

(** ** The spec function [varint] *)

Lemma size_nat_div128 : forall v, 128 <= v -> (N.size_nat (v / 128) < N.size_nat v)%nat.
Proof.
  intros v H.
  assert (E : v / 128 = N.shiftr v 7) by (rewrite N.shiftr_div_pow2; reflexivity).
  assert (Hs : forall x, (N.size_nat (N.div2 x) <= N.size_nat x)%nat).
  { intros [|p]; [apply le_n|]. destruct p; simpl; unfold N.size_nat; simpl; lia. }
  assert (Hs' : forall x, x <> 0 -> (N.size_nat (N.div2 x) < N.size_nat x)%nat).
  { intros [|p] Hx; [congruence|]. destruct p; simpl; unfold N.size_nat; simpl; lia. }
  rewrite E. change 7 with (N.succ 6). rewrite N.shiftr_succ_r.
  eapply Nat.lt_le_trans.
  - apply Hs'. rewrite N.shiftr_div_pow2. change (2^6) with 64. lia.
  - change 6 with (N.succ (N.succ (N.succ (N.succ (N.succ (N.succ 0)))))).
    rewrite !N.shiftr_succ_r. rewrite N.shiftr_0_r.
    repeat (eapply Nat.le_trans; [apply Hs|]). apply le_n.
Qed.

Lemma varint_digits_fuel : forall f g v, (N.size_nat v < f)%nat -> (N.size_nat v < g)%nat ->
  varint_digits f v = varint_digits g v.
Proof.
  induction f as [|f IH]; intros g v Hf Hg; [lia|].
  destruct g as [|g]; [lia|]. cbn [varint_digits].
  destruct (v <? 128) eqn:E; [reflexivity|]. f_equal.
  assert (128 <= v) by lia. pose proof (size_nat_div128 v H).
  apply IH; lia.
Qed.

Lemma varint_small : forall v, v < 128 -> varint v = [n2b v].
Proof. intros. unfold varint. cbn [varint_digits]. now replace (v <? 128) with true by lia. Qed.

Lemma varint_big : forall v, 128 <= v -> varint v = n2b (v mod 128 + 128) :: varint (v / 128).
Proof.
  intros. unfold varint at 1. cbn [varint_digits]. replace (v <? 128) with false by lia.
  f_equal. unfold varint. apply varint_digits_fuel; pose proof (size_nat_div128 v H); lia.
Qed.

Lemma varint_ind : forall P : N -> Prop,
  (forall v, v < 128 -> P v) -> (forall v, 128 <= v -> P (v / 128) -> P v) -> forall v, P v.
Proof.
  intros P H1 H2 v. induction v as [v IH] using (well_founded_induction N.lt_wf_0).
  destruct (N.lt_ge_cases v 128); [auto|]. apply H2; [assumption|]. apply IH. lia.
Qed.

Lemma varint_nonempty : forall v, varint v <> [].
Proof.
  intro v. destruct (N.lt_ge_cases v 128).
  - rewrite varint_small by assumption. discriminate.
  - rewrite varint_big by assumption. discriminate.
Qed.

Lemma is_varint_cons : forall b r, r <> [] -> is_varint (b :: r) = (128 <=? b2n b) && is_varint r.
Proof. intros b [|c r] H; [congruence|reflexivity]. Qed.

Lemma minimal_cons : forall a b r, r <> [] -> minimal (a :: b :: r) = minimal (b :: r).
Proof. intros a b [|c r] H; [congruence|reflexivity]. Qed.

Lemma varint_is_varint : forall v, is_varint (varint v) = true.
Proof.
  apply varint_ind; intros v H.
  - rewrite varint_small by assumption. cbn [is_varint]. rewrite b2n_n2b. lia.
  - intro IH. rewrite varint_big by assumption. rewrite is_varint_cons by apply varint_nonempty.
    rewrite IH, b2n_n2b. lia.
Qed.

Lemma varint_value_varint : forall v, varint_value (varint v) = v.
Proof.
  apply varint_ind; intros v H.
  - rewrite varint_small by assumption. cbn [varint_value]. rewrite b2n_n2b. lia.
  - intro IH. rewrite varint_big by assumption. cbn [varint_value]. rewrite IH, b2n_n2b. lia.
Qed.

Lemma varint_minimal : forall v, minimal (varint v) = true.
Proof.
  apply varint_ind; intros v H.
  - rewrite varint_small by assumption. reflexivity.
  - intro IH. rewrite varint_big by assumption.
    destruct (N.lt_ge_cases (v / 128) 128).
    + rewrite varint_small by assumption. cbn [minimal]. rewrite b2n_n2b. lia.
    + rewrite varint_big in * by assumption. rewrite minimal_cons by apply varint_nonempty. assumption.
Qed.

Lemma canonical_varint_varint : forall v, canonical_varint v (varint v).
Proof. intro. repeat split; auto using varint_is_varint, varint_value_varint, varint_minimal. Qed.

Lemma canonical_varint_unique : forall v bs, canonical_varint v bs -> bs = varint v.
Proof.
  intros v bs; revert v. induction bs as [|b r IH]; intros v (H1 & H2 & H3); [discriminate|].
  destruct r as [|c r].
  - cbn [is_varint varint_value] in *. rewrite varint_small by lia. f_equal.
    apply b2n_inj. rewrite b2n_n2b. lia.
  - rewrite is_varint_cons in H1 by discriminate. apply andb_true_iff in H1 as [Hb Hr].
    assert (Hv : varint_value (c :: r) = v / 128).
    { cbn [varint_value] in H2 |- *. pose proof (b2n_lt c). pose proof (b2n_lt b). lia. }
    assert (Hm : minimal (c :: r) = true).
    { destruct r; [reflexivity|]. exact H3. }
    assert (Hnz : varint_value (c :: r) <> 0).
    { clear - H3 Hr. revert b c H3 Hr. induction r as [|d r IH]; intros.
      - cbn [minimal varint_value is_varint] in *. lia.
      - rewrite is_varint_cons in Hr by discriminate. apply andb_true_iff in Hr as [Hc Hr].
        specialize (IH c d). rewrite minimal_cons in H3 by discriminate. specialize (IH H3 Hr).
        change (varint_value (c :: d :: r)) with (b2n c mod 128 + 128 * varint_value (d :: r)). lia. }
    rewrite varint_big.
    + f_equal.
      * apply b2n_inj. rewrite b2n_n2b. cbn [varint_value] in H2. pose proof (b2n_lt b). lia.
      * apply IH. repeat split; assumption.
    + change (varint_value (b :: c :: r)) with (b2n b mod 128 + 128 * varint_value (c :: r)) in H2. lia.
Qed.

Lemma varint_len_gen : forall k v, v < 128 ^ N.of_nat (S k) -> (length (varint v) <= S k)%nat.
Proof.
  induction k as [|k IH]; intros v H.
  - rewrite varint_small by (cbn in H; lia). reflexivity.
  - destruct (N.lt_ge_cases v 128).
    + rewrite varint_small by assumption. cbn. lia.
    + rewrite varint_big by assumption. cbn [length]. apply le_n_S, IH.
      replace (N.of_nat (S (S k))) with (N.succ (N.of_nat (S k))) in H by lia.
      rewrite N.pow_succ_r' in H. apply N.div_lt_upper_bound; lia.
Qed.

Lemma varint_len10 : forall v, v < 2^64 -> (length (varint v) <= 10)%nat.
Proof.
  intros. apply varint_len_gen. change (128 ^ N.of_nat 10) with (2^70).
  eapply N.lt_trans; [eassumption|]. reflexivity.
Qed.

Lemma varint_valid : forall v, v < 2^64 -> valid_varint (varint v) v.
Proof.
  intros. repeat split; auto using varint_is_varint, varint_value_varint, varint_len10.
Qed.

(** ** Encoders *)

Lemma append_varint_loop_spec : forall f b v, (N.size_nat v < f)%nat ->
  append_varint_loop f b v = b ++ varint v.
Proof.
  induction f as [|f IH]; intros b v Hf; [lia|]. cbn [append_varint_loop].
  destruct (0x80 <=? v) eqn:E.
  - assert (128 <= v) by lia. pose proof (size_nat_div128 v H).
    replace (N.shiftr v 7) with (v / 128) by (rewrite N.shiftr_div_pow2; reflexivity).
    rewrite IH by lia. rewrite <- app_assoc. rewrite (varint_big v) by assumption.
    f_equal. cbn [app]. f_equal. apply n2b_ext. rewrite c8_mod. lia.
  - rewrite varint_small by lia. reflexivity.
Qed.

Lemma AppendVarint_spec : forall b v, AppendVarint b v = b ++ varint v.
Proof. intros. apply append_varint_loop_spec. lia. Qed.


Lemma vbig : forall v a c, c = a * 128 -> a <> 0 -> c <= v ->
  varint (v / a) = n2b ((v / a) mod 128 + 128) :: varint (v / c).
Proof.
  intros v a c -> Ha H. rewrite varint_big.
  - now rewrite N.div_div by lia.
  - apply N.div_le_lower_bound; lia.
Qed.
Lemma vsmall : forall v a c, c = a * 128 -> a <> 0 -> v < c -> varint (v / a) = [n2b (v / a)].
Proof.
  intros v a c -> Ha H. apply varint_small. apply N.div_lt_upper_bound; lia.
Qed.

Lemma varint_div1 : forall v, varint v = varint (v / 2^0).
Proof. intro. now rewrite N.pow_0_r, N.div_1_r. Qed.

Ltac vd := rewrite ?c7_n2b, ?c8_n2b, ?sh_n2b; f_equal; rewrite varint_div1;
  repeat first
   [ rewrite (vsmall _ (2^0) (2^7)) by (reflexivity || discriminate || lia)
   | rewrite (vbig _ (2^0) (2^7)) by (reflexivity || discriminate || lia)
   | rewrite (vsmall _ (2^7) (2^14)) by (reflexivity || discriminate || lia)
   | rewrite (vbig _ (2^7) (2^14)) by (reflexivity || discriminate || lia)
   | rewrite (vsmall _ (2^14) (2^21)) by (reflexivity || discriminate || lia)
   | rewrite (vbig _ (2^14) (2^21)) by (reflexivity || discriminate || lia)
   | rewrite (vsmall _ (2^21) (2^28)) by (reflexivity || discriminate || lia)
   | rewrite (vbig _ (2^21) (2^28)) by (reflexivity || discriminate || lia)
   | rewrite (vsmall _ (2^28) (2^35)) by (reflexivity || discriminate || lia)
   | rewrite (vbig _ (2^28) (2^35)) by (reflexivity || discriminate || lia)
   | rewrite (vsmall _ (2^35) (2^42)) by (reflexivity || discriminate || lia)
   | rewrite (vbig _ (2^35) (2^42)) by (reflexivity || discriminate || lia)
   | rewrite (vsmall _ (2^42) (2^49)) by (reflexivity || discriminate || lia)
   | rewrite (vbig _ (2^42) (2^49)) by (reflexivity || discriminate || lia)
   | rewrite (vsmall _ (2^49) (2^56)) by (reflexivity || discriminate || lia)
   | rewrite (vbig _ (2^49) (2^56)) by (reflexivity || discriminate || lia)
   | rewrite (vsmall _ (2^56) (2^63)) by (reflexivity || discriminate || lia)
   | rewrite (vbig _ (2^56) (2^63)) by (reflexivity || discriminate || lia)
   | rewrite (vsmall _ (2^63) (2^70)) by (reflexivity || discriminate || lia) ];
  rewrite ?N.pow_0_r, ?N.div_1_r; reflexivity.

Lemma top_bit : forall v, 2^63 <= v -> v < 2^64 -> x01 = n2b (v / 2^63).
Proof. intros. replace (v / 2^63) with 1 by lia. reflexivity. Qed.

Lemma varint_switch64_spec : forall b v, v < 2^64 -> varint_switch64 b v = b ++ varint v.
Proof.
  intros b v Hv. unfold varint_switch64.
  destruct (v <? 2^7) eqn:E7. { now rewrite varint_small by lia. }
  destruct (v <? 2^14) eqn:E14; [vd|].
  destruct (v <? 2^21) eqn:E21; [vd|].
  destruct (v <? 2^28) eqn:E28; [vd|].
  destruct (v <? 2^35) eqn:E35; [vd|].
  destruct (v <? 2^42) eqn:E42; [vd|].
  destruct (v <? 2^49) eqn:E49; [vd|].
  destruct (v <? 2^56) eqn:E56; [vd|].
  destruct (v <? 2^63) eqn:E63; [vd|].
  rewrite (top_bit v) by lia. vd.
Qed.

Lemma varint_switch32_spec : forall b v, v < 2^32 -> varint_switch32 b v = b ++ varint v.
Proof.
  intros b v Hv. unfold varint_switch32.
  destruct (v <? 2^7) eqn:E7. { now rewrite varint_small by lia. }
  destruct (v <? 2^14) eqn:E14; [vd|].
  destruct (v <? 2^21) eqn:E21; [vd|].
  destruct (v <? 2^28) eqn:E28; vd.
Qed.

Lemma AppendVarintSmall_spec : forall b v, AppendVarintSmall b v = b ++ varint v.
Proof.
  intros b v. unfold AppendVarintSmall.
  destruct (v <? 2^7) eqn:E7. { now rewrite varint_small by lia. }
  destruct (v <? 2^14) eqn:E14; [vd|].
  destruct (v <? 2^21) eqn:E21; [vd|].
  apply append_varint_loop_spec. lia.
Qed.

Lemma AppendVarintI32_spec : forall b v, v < 2^32 ->
  UnsafeAppendVarintI32 b v = b ++ varint (u64_of (int32_of v)).
Proof.
  intros b v Hv. unfold UnsafeAppendVarintI32, u64_of, int32_of, sext32.
  destruct (v <? 2^31) eqn:E.
  - rewrite varint_switch32_spec by assumption. do 2 f_equal. lia.
  - replace (Z.to_N ((Z.of_N v - 2 ^ 32) mod 2 ^ 64)) with (v + (2^64 - 2^32)) by lia.
    cbv zeta. set (w := v + (2^64 - 2^32)). rewrite (top_bit w) by lia. vd.
Qed.

Lemma sext32_spec : forall v, v < 2^32 -> sext32 v = u64_of (int32_of v).
Proof. intros. unfold sext32, u64_of, int32_of. destruct (v <? 2^31) eqn:E; lia. Qed.

(** ** ZigZag *)
Lemma lxor_0_r' : forall a, N.lxor a 0 = a. Proof. apply N.lxor_0_r. Qed.

Lemma lxor_ones : forall a k, a < 2^k -> N.lxor a (2^k - 1) = 2^k - 1 - a.
Proof.
  intros a k H. replace (2^k - 1) with (N.ones k) by (rewrite N.ones_equiv; lia).
  rewrite <- (N.mod_small a (2^k)) at 1 by assumption. rewrite <- N.land_ones.
  rewrite (N.sub_nocarry_ldiff (N.ones k) a).
  - apply N.bits_inj. intro i. rewrite N.lxor_spec, N.land_spec, N.ldiff_spec.
    destruct (N.testbit a i), (N.testbit (N.ones k) i); reflexivity.
  - apply N.bits_inj. intro i. rewrite N.ldiff_spec, N.bits_0.
    destruct (N.lt_ge_cases i k).
    + rewrite N.ones_spec_low by assumption. now rewrite andb_false_r.
    + rewrite <- (N.mod_small a (2^k)) by assumption. rewrite N.mod_pow2_bits_high by assumption. reflexivity.
Qed.

Lemma zz64_spec : forall n, n < 2^64 -> zz64 n = zigzag (int64_of n).
Proof.
  intros n H. unfold zz64, zigzag, int64_of, asr63, wrap64. rewrite N.shiftl_mul_pow2.
  destruct (n <? 2^63) eqn:E.
  - rewrite N.lxor_0_r. destruct (0 <=? Z.of_N n)%Z eqn:E2; lia.
  - rewrite lxor_ones by lia. destruct (0 <=? Z.of_N n - 2^64)%Z eqn:E2; lia.
Qed.

Lemma zz32_spec : forall n, n < 2^32 -> zz32 n = zigzag (int32_of n).
Proof.
  intros n H. unfold zz32, zigzag, int32_of, asr31, wrap32. rewrite N.shiftl_mul_pow2.
  destruct (n <? 2^31) eqn:E.
  - rewrite N.lxor_0_r. destruct (0 <=? Z.of_N n)%Z eqn:E2; lia.
  - rewrite lxor_ones by lia. destruct (0 <=? Z.of_N n - 2^32)%Z eqn:E2; lia.
Qed.

Lemma zz64_lt : forall n, n < 2^64 -> zz64 n < 2^64.
Proof.
  intros. rewrite zz64_spec by assumption. unfold zigzag, int64_of.
  destruct (n <? 2^63) eqn:E; match goal with |- context [(0 <=? ?z)%Z] => destruct (0 <=? z)%Z eqn:E2 end; lia.
Qed.
Lemma zz32_lt : forall n, n < 2^32 -> zz32 n < 2^32.
Proof.
  intros. rewrite zz32_spec by assumption. unfold zigzag, int32_of.
  destruct (n <? 2^31) eqn:E; match goal with |- context [(0 <=? ?z)%Z] => destruct (0 <=? z)%Z eqn:E2 end; lia.
Qed.

Lemma DecodeZigZag_spec : forall n, n < 2^64 ->
  DecodeZigZag n < 2^64 /\ zigzag (int64_of (DecodeZigZag n)) = n.
Proof.
  intros n H. unfold DecodeZigZag, asr63, wrap64.
  rewrite N.shiftl_mul_pow2, N.shiftr_div_pow2. change (2^1) with 2.
  assert (Hc : n mod 2 = 0 \/ n mod 2 = 1) by lia. destruct Hc as [Hc|Hc].
  - replace (n * 2^63 mod 2^64) with 0 by lia. cbn [N.ltb]. change (0 <? 2^63) with true. cbv iota.
    rewrite N.lxor_0_r. split; [lia|]. unfold zigzag, int64_of.
    destruct (n / 2 <? 2^63) eqn:E; [|lia].
    destruct (0 <=? Z.of_N (n / 2))%Z eqn:E2; lia.
  - replace (n * 2^63 mod 2^64) with (2^63) by lia. change (2^63 <? 2^63) with false. cbv iota.
    rewrite lxor_ones by lia. split; [lia|]. unfold zigzag, int64_of.
    destruct (2^64 - 1 - n / 2 <? 2^63) eqn:E; [lia|].
    match goal with |- context [(0 <=? ?z)%Z] => destruct (0 <=? z)%Z eqn:E2 end; lia.
Qed.

Lemma zigzag_inj : forall a b, zigzag a = zigzag b -> a = b.
Proof.
  intros a b. unfold zigzag. destruct (0 <=? a)%Z eqn:Ea, (0 <=? b)%Z eqn:Eb; lia.
Qed.
Lemma int64_of_inj : forall a b, a < 2^64 -> b < 2^64 -> int64_of a = int64_of b -> a = b.
Proof. intros a b Ha Hb. unfold int64_of. destruct (a <? 2^63) eqn:Ea, (b <? 2^63) eqn:Eb; lia. Qed.
Lemma int32_of_inj : forall a b, a < 2^32 -> b < 2^32 -> int32_of a = int32_of b -> a = b.
Proof. intros a b Ha Hb. unfold int32_of. destruct (a <? 2^31) eqn:Ea, (b <? 2^31) eqn:Eb; lia. Qed.

Lemma DecodeZigZag_zz64 : forall n, n < 2^64 -> DecodeZigZag (zz64 n) = n.
Proof.
  intros n H. pose proof (zz64_lt n H) as H1. destruct (DecodeZigZag_spec _ H1) as [H2 H3].
  apply int64_of_inj; [assumption..|]. apply zigzag_inj. rewrite H3. now apply zz64_spec.
Qed.

Lemma DecodeZigZag_zz32 : forall n, n < 2^32 -> wrap32 (DecodeZigZag (zz32 n)) = n.
Proof.
  intros n H. pose proof (zz32_lt n H) as H1.
  assert (H1' : zz32 n < 2^64) by lia.
  destruct (DecodeZigZag_spec _ H1') as [H2 H3].
  rewrite (zz32_spec n H) in H3 at 2. apply zigzag_inj in H3. unfold wrap32.
  revert H2 H3. generalize (DecodeZigZag (zz32 n)) as x. intros x H2 H3.
  unfold int64_of, int32_of in H3. destruct (x <? 2^63) eqn:E1, (n <? 2^31) eqn:E2; lia.
Qed.

Lemma AppendZigZag64_spec : forall b n, n < 2^64 ->
  UnsafeAppendZigZag64 b n = b ++ varint (zigzag (int64_of n)).
Proof.
  intros. unfold UnsafeAppendZigZag64. rewrite varint_switch64_spec by now apply zz64_lt.
  now rewrite zz64_spec.
Qed.

Lemma AppendZigZag32_spec : forall b n, n < 2^32 ->
  UnsafeAppendZigZag32 b n = b ++ varint (zigzag (int32_of n)).
Proof.
  intros b n H. unfold UnsafeAppendZigZag32. rewrite <- zz32_spec by assumption.
  pose proof (zz32_lt n H) as Hv. cbv zeta. set (v := zz32 n) in *. clearbody v.
  destruct (v <? 2^7) eqn:E7. { now rewrite varint_small by lia. }
  destruct (v <? 2^14) eqn:E14; [vd|].
  destruct (v <? 2^21) eqn:E21; [vd|].
  destruct (v <? 2^28) eqn:E28; vd.
Qed.

(** ** Fixed *)
Lemma fixed32_bytes_spec : forall v, fixed32_bytes v = le_bytes 4 v.
Proof.
  intro v. unfold fixed32_bytes. rewrite !sh_n2b. cbn [le_bytes].
  rewrite !N.div_div by discriminate. rewrite N.pow_0_r, N.div_1_r. reflexivity.
Qed.
Lemma fixed64_bytes_spec : forall v, fixed64_bytes v = le_bytes 8 v.
Proof.
  intro v. unfold fixed64_bytes. rewrite !sh_n2b. cbn [le_bytes].
  rewrite !N.div_div by discriminate. rewrite N.pow_0_r, N.div_1_r. reflexivity.
Qed.

Lemma le_bytes_length : forall k v, length (le_bytes k v) = k.
Proof. induction k; intros; cbn; auto. Qed.

Lemma le_value_lt : forall bs, le_value bs < 256 ^ blen bs.
Proof.
  induction bs as [|b r IH]; [reflexivity|]. cbn [le_value]. unfold blen in *. cbn [length].
  rewrite Nat2N.inj_succ, N.pow_succ_r'. pose proof (b2n_lt b). lia.
Qed.

Lemma le_value_le_bytes : forall k v, v < 256 ^ N.of_nat k -> le_value (le_bytes k v) = v.
Proof.
  induction k as [|k IH]; intros v H.
  - cbn in *. lia.
  - cbn [le_bytes le_value]. rewrite Nat2N.inj_succ, N.pow_succ_r' in H.
    rewrite IH by (apply N.div_lt_upper_bound; lia). rewrite b2n_n2b. lia.
Qed.

Lemma le_bytes_le_value : forall bs, le_bytes (length bs) (le_value bs) = bs.
Proof.
  induction bs as [|b r IH]; [reflexivity|]. cbn [le_value length le_bytes].
  pose proof (b2n_lt b). f_equal.
  - apply b2n_inj. rewrite b2n_n2b. lia.
  - transitivity (le_bytes (length r) (le_value r)); [f_equal; lia|exact IH].
Qed.


Lemma lor_disjoint : forall a b k, a < 2^k -> N.lor a (N.shiftl b k) = a + b * 2^k.
Proof.
  intros. rewrite N.shiftl_mul_pow2.
  assert (E : N.land a (b * 2^k) = 0).
  { apply N.bits_inj; intro i; rewrite N.land_spec, N.bits_0;
    destruct (N.lt_ge_cases i k);
    [ rewrite N.mul_pow2_bits_low by assumption; apply andb_false_r
    | rewrite <- (N.mod_small a (2^k)) by assumption; rewrite N.mod_pow2_bits_high by assumption; reflexivity ]. }
  rewrite N.add_nocarry_lxor by assumption. now rewrite N.lxor_lor.
Qed.

Lemma lor_step : forall a x i j, j = i + 8 -> a < 256 ->
  N.lor (N.shiftl a i) (N.shiftl x j) = N.shiftl (a + 256 * x) i.
Proof.
  intros a x i j -> Ha. rewrite (N.add_comm i 8). rewrite <- N.shiftl_shiftl.
  rewrite <- N.shiftl_lor. f_equal. rewrite lor_disjoint by assumption. change (2^8) with 256. lia.
Qed.

Lemma ConsumeFixed32_app : forall b r, length b = 4%nat ->
  ConsumeFixed32 (b ++ r) = Ok (le_value b, 4%nat).
Proof.
  intros b r H. destruct b as [|b0 [|b1 [|b2 [|b3 [|]]]]]; try discriminate H.
  cbn [ConsumeFixed32 app le_value]. do 2 f_equal.
  pose proof b2n_lt.
  rewrite (lor_step _ _ 16) by (reflexivity || auto).
  rewrite (lor_step _ _ 8) by (reflexivity || auto).
  rewrite (lor_step _ _ 0) by (reflexivity || auto).
  rewrite N.shiftl_0_r. rewrite N.mul_0_r, N.add_0_r. reflexivity.
Qed.

Lemma ConsumeFixed64_app : forall b r, length b = 8%nat ->
  ConsumeFixed64 (b ++ r) = Ok (le_value b, 8%nat).
Proof.
  intros b r H. destruct b as [|b0 [|b1 [|b2 [|b3 [|b4 [|b5 [|b6 [|b7 [|]]]]]]]]]; try discriminate H.
  cbn [ConsumeFixed64 app le_value]. do 2 f_equal.
  pose proof b2n_lt.
  rewrite (lor_step _ _ 48) by (reflexivity || auto).
  rewrite (lor_step _ _ 40) by (reflexivity || auto).
  rewrite (lor_step _ _ 32) by (reflexivity || auto).
  rewrite (lor_step _ _ 24) by (reflexivity || auto).
  rewrite (lor_step _ _ 16) by (reflexivity || auto).
  rewrite (lor_step _ _ 8) by (reflexivity || auto).
  rewrite (lor_step _ _ 0) by (reflexivity || auto).
  rewrite N.shiftl_0_r. rewrite N.mul_0_r, N.add_0_r. reflexivity.
Qed.

Lemma ConsumeFixed32_inv : forall b r, ConsumeFixed32 b = r ->
  (exists s t, b = s ++ t /\ length s = 4%nat /\ r = Ok (le_value s, 4%nat)) \/
  ((length b < 4)%nat /\ r = Err ETruncated).
Proof.
  intros b r H. destruct (Nat.lt_ge_cases (length b) 4).
  - right. split; [assumption|]. subst.
    destruct b as [|b0 [|b1 [|b2 [|b3 b]]]]; try reflexivity. cbn in H0. lia.
  - left. exists (firstn 4 b), (skipn 4 b). rewrite firstn_skipn.
    assert (length (firstn 4 b) = 4%nat) by (rewrite firstn_length; lia).
    repeat split; auto. rewrite <- H, <- (firstn_skipn 4 b) at 1. now apply ConsumeFixed32_app.
Qed.

Lemma ConsumeFixed64_inv : forall b r, ConsumeFixed64 b = r ->
  (exists s t, b = s ++ t /\ length s = 8%nat /\ r = Ok (le_value s, 8%nat)) \/
  ((length b < 8)%nat /\ r = Err ETruncated).
Proof.
  intros b r H. destruct (Nat.lt_ge_cases (length b) 8).
  - right. split; [assumption|]. subst.
    destruct b as [|b0 [|b1 [|b2 [|b3 [|b4 [|b5 [|b6 [|b7 b]]]]]]]]; try reflexivity. cbn in H0. lia.
  - left. exists (firstn 8 b), (skipn 8 b). rewrite firstn_skipn.
    assert (length (firstn 8 b) = 8%nat) by (rewrite firstn_length; lia).
    repeat split; auto. rewrite <- H, <- (firstn_skipn 8 b) at 1. now apply ConsumeFixed64_app.
Qed.

