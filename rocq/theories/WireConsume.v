(** Proofs about the wire-level consumers against WireSpec. *)
From Verif Require Import Base Wire WireSpec WireProofs.
From Coq Require Import Init.Byte.
From Coq Require Import Lia ZifyBool ZifyNat ZifyN.
Open Scope N_scope.
Ltac Zify.zify_post_hook ::= Z.div_mod_to_equations.
Arguments N.add : simpl never.
Arguments N.mul : simpl never.
Arguments N.div : simpl never.
Arguments N.modulo : simpl never.
Arguments N.sub : simpl never.
Arguments N.pow : simpl never.
Arguments N.size_nat : simpl never.
Arguments N.shiftr : simpl never.
Arguments N.shiftl : simpl never.
Arguments N.lor : simpl never.
Arguments N.land : simpl never.
Arguments N.ltb : simpl never.
Arguments N.leb : simpl never.
Arguments n2b : simpl never.
Arguments b2n : simpl never.

(** ** ConsumeVarint *)

(** Recursive form of the unrolled decoder. *)
Fixpoint cvarint (left : nat) (pos : nat) (b : bytes) : res (N * nat) :=
  match b with
  | [] => Err ETruncated
  | b0 :: r =>
      match left with
      | O => if b2n b0 <? 2 then Ok (b2n b0, S pos) else Err EOverflow
      | S left' =>
          if b2n b0 <? 128 then Ok (b2n b0, S pos)
          else do (v, n) <- cvarint left' (S pos) r; Ok (b2n b0 - 128 + 128 * v, n)
      end
  end.

Lemma cv_step : forall v y k, 128 <= y ->
  v + N.shiftl y k - N.shiftl 0x80 k = v + (y - 128) * 2^k.
Proof.
  intros. rewrite !N.shiftl_mul_pow2. rewrite <- N.add_sub_assoc.
  - now rewrite N.mul_sub_distr_r.
  - now apply N.mul_le_mono_r.
Qed.

Ltac cvs b c :=
  let Hlt := fresh "Hlt" in let E := fresh "E" in
  destruct b as [|c b]; [reflexivity|]; cbn [cvarint];
  pose proof (b2n_lt c) as Hlt;
  destruct (b2n c <? 128) eqn:E;
  [ rewrite N.shiftl_mul_pow2; clear E Hlt; cbn [bind]; do 2 f_equal;
    repeat match goal with |- context [b2n ?z - 128] => let d := fresh "d" in generalize (b2n z - 128); intro d end;
    generalize (b2n c); intro; clear; lia
  | rewrite cv_step by (apply N.ltb_ge; exact E) ].

Lemma ConsumeVarint_rec : forall b, ConsumeVarint b = cvarint 9 0 b.
Proof.
  intro b. unfold ConsumeVarint.
  destruct b as [|b0 b]; [reflexivity|]. cbn [cvarint]. cbv zeta.
  destruct (b2n b0 <? 128) eqn:E0; [reflexivity|].
  pose proof (b2n_lt b0) as Hlt0.
  cvs b b1. cvs b b2. cvs b b3. cvs b b4. cvs b b5. cvs b b6. cvs b b7. cvs b b8.
  destruct b as [|b9 b]; [reflexivity|]. cbn [cvarint]. rewrite !N.shiftl_mul_pow2.
  destruct (b2n b9 <? 2) eqn:E9; [|reflexivity].
  cbn [bind]. do 2 f_equal. unfold wrap64.
  rewrite (N.mod_small (b2n b9 * 2^63)) by (clear - E9; lia).
  assert (forall c, b2n c < 256 -> exists d, b2n c - 128 = d /\ d < 128) as Hd.
  { intros c Hc. exists (b2n c - 128). split; [reflexivity|]. clear - Hc. lia. }
  repeat match goal with H : b2n ?z < 256 |- _ =>
    let d := fresh "d" in let Hd1 := fresh in let Hd2 := fresh in
    destruct (Hd z H) as (d & Hd1 & Hd2); rewrite ?Hd1; clear Hd1; clear H end.
  clear Hd.
  rewrite N.mod_small.
  - clear. lia.
  - repeat match goal with H : (b2n _ <? 128) = false |- _ => clear H end. lia.
Qed.

(** What the recursive form accepts, in terms of the grammar. *)
Lemma cvarint_ok : forall left pos b v n, cvarint left pos b = Ok (v, n) ->
  exists s t, b = s ++ t /\ is_varint s = true /\ varint_value s = v /\
    n = (pos + length s)%nat /\ (length s <= S left)%nat /\ v < 2 * 128 ^ N.of_nat left.
Proof.
  induction left as [|left IH]; intros pos b v n H; destruct b as [|b0 b]; cbn [cvarint] in H;
    try discriminate H; pose proof (b2n_lt b0) as Hlt.
  - destruct (b2n b0 <? 2) eqn:E; [|discriminate H]. injection H as <- <-.
    exists [b0], b. cbn [is_varint varint_value length app]. repeat split; lia.
  - rewrite Nat2N.inj_succ, N.pow_succ_r'. assert (0 < 128 ^ N.of_nat left) by (apply N.neq_0_lt_0, N.pow_nonzero; discriminate).
    destruct (b2n b0 <? 128) eqn:E.
    + injection H as <- <-. exists [b0], b. cbn [is_varint varint_value length app].
      repeat split; try lia.
    + destruct (cvarint left (S pos) b) as [[v' n']| | |] eqn:E2; cbn [bind] in H; try discriminate H.
      injection H as <- <-. apply IH in E2 as (s & t & -> & H1 & H2 & H3 & H4 & H5).
      exists (b0 :: s), t. rewrite is_varint_cons by (intros ->; discriminate H1). rewrite H1.
      cbn [varint_value length app]. repeat split; lia.
Qed.

Lemma cvarint_complete : forall left pos s t, is_varint s = true -> (length s <= S left)%nat ->
  varint_value s < 2 * 128 ^ N.of_nat left ->
  cvarint left pos (s ++ t) = Ok (varint_value s, (pos + length s)%nat).
Proof.
  induction left as [|left IH]; intros pos s t H1 H2 H3; destruct s as [|b0 s]; try discriminate H1;
    cbn [app cvarint]; pose proof (b2n_lt b0) as Hlt.
  - destruct s as [|]; [|cbn in H2; lia]. cbn [is_varint varint_value length] in *.
    change (2 * 128 ^ N.of_nat 0) with 2 in H3.
    replace (b2n b0 <? 2) with true by lia. do 2 f_equal; lia.
  - destruct s as [|b1 s].
    + cbn [is_varint varint_value length app] in *. replace (b2n b0 <? 128) with true by lia.
      do 2 f_equal; lia.
    + rewrite is_varint_cons in H1 by discriminate. apply andb_true_iff in H1 as [Hb Hs].
      replace (b2n b0 <? 128) with false by lia.
      rewrite Nat2N.inj_succ, N.pow_succ_r' in H3.
      change (varint_value (b0 :: b1 :: s)) with (b2n b0 mod 128 + 128 * varint_value (b1 :: s)) in *.
      rewrite IH; [|assumption|cbn [length] in *; lia|lia].
      cbn [bind length]. do 2 f_equal; lia.
Qed.

Lemma ConsumeVarint_iff : forall b v n,
  ConsumeVarint b = Ok (v, n) <->
  exists s t, b = s ++ t /\ length s = n /\ valid_varint s v.
Proof.
  intros. rewrite ConsumeVarint_rec. unfold valid_varint. split.
  - intro H. apply cvarint_ok in H as (s & t & -> & H1 & H2 & H3 & H4 & H5).
    change (2 * 128 ^ N.of_nat 9) with (2^64) in H5.
    exists s, t. repeat split; auto; lia.
  - intros (s & t & -> & <- & H1 & H2 & H3 & H4). subst.
    rewrite cvarint_complete; auto.
Qed.

Lemma ConsumeVarint_valid : forall s v t, valid_varint s v ->
  ConsumeVarint (s ++ t) = Ok (v, length s).
Proof. intros. apply ConsumeVarint_iff. eauto. Qed.

Lemma ConsumeVarint_varint : forall v t, v < 2^64 ->
  ConsumeVarint (varint v ++ t) = Ok (v, length (varint v)).
Proof. intros. apply ConsumeVarint_valid, varint_valid. assumption. Qed.

Lemma ConsumeVarint_inv : forall b v n, ConsumeVarint b = Ok (v, n) ->
  (1 <= n <= 10)%nat /\ (n <= length b)%nat /\ v < 2^64 /\ valid_varint (firstn n b) v.
Proof.
  intros b v n H. apply ConsumeVarint_iff in H as (s & t & -> & Hn & Hv).
  subst n. rewrite firstn_app, Nat.sub_diag, firstn_O, app_nil_r, firstn_all.
  destruct Hv as (H1 & H2 & H3 & H4). rewrite app_length.
  assert (length s <> 0)%nat by (destruct s; [discriminate H1|cbn; lia]).
  repeat split; auto; lia.
Qed.

Lemma cvarint_no_panic : forall l p b, cvarint l p b <> Panic /\ cvarint l p b <> OutOfFuel.
Proof.
  induction l as [|l IH]; intros p [|b0 b]; cbn [cvarint]; try (split; congruence).
  - destruct (b2n b0 <? 2); split; congruence.
  - destruct (b2n b0 <? 128); [split; congruence|].
    destruct (IH (S p) b). destruct (cvarint l (S p) b) as [[? ?]| | |]; cbn [bind]; split; congruence.
Qed.

Lemma ConsumeVarint_no_panic : forall b, ConsumeVarint b <> Panic /\ ConsumeVarint b <> OutOfFuel.
Proof. intro b. rewrite ConsumeVarint_rec. apply cvarint_no_panic. Qed.

(** Errors of ConsumeVarint: truncated iff every available byte (at most ten of
    them) has its continuation bit set and input ended; overflow otherwise. *)
Lemma cvarint_err : forall left pos b e, cvarint left pos b = Err e ->
  (e = ETruncated /\ (length b <= left)%nat /\ forallb (fun c => 128 <=? b2n c) b = true) \/
  (e = EOverflow /\ (left < length b)%nat /\ forallb (fun c => 128 <=? b2n c) (firstn left b) = true).
Proof.
  induction left as [|left IH]; intros pos b e H; destruct b as [|b0 b]; cbn [cvarint] in H.
  - injection H as <-. left. auto.
  - destruct (b2n b0 <? 2) eqn:E; [discriminate H|]. injection H as <-. right. cbn. repeat split; lia.
  - injection H as <-. left. cbn. repeat split; lia.
  - destruct (b2n b0 <? 128) eqn:E; [discriminate H|].
    destruct (cvarint left (S pos) b) as [[v n]| e' | |] eqn:E2; cbn [bind] in H; try discriminate H.
    injection H as <-. apply IH in E2 as [(-> & H1 & H2)|(-> & H1 & H2)]; [left|right];
      cbn [firstn forallb length]; rewrite H2; repeat split; lia.
Qed.

(** ** SizeVarint *)
Lemma size_le_iff : forall v k, N.size v <= k <-> v < 2^k.
Proof.
  intros v k. split; intro H.
  - eapply N.lt_le_trans; [apply N.size_gt|]. now apply N.pow_le_mono_r.
  - destruct (N.eq_dec v 0) as [->|Hv]; [cbn; lia|].
    rewrite N.size_log2 by assumption. apply N.log2_lt_pow2 in H; lia.
Qed.

Lemma varint_length_iff : forall k v, (length (varint v) <= S k)%nat <-> v < 2^(7 * N.of_nat (S k)).
Proof.
  induction k as [|k IH]; intro v.
  - change (2 ^ (7 * N.of_nat 1)) with 128. destruct (N.lt_ge_cases v 128).
    + rewrite varint_small by assumption. cbn. lia.
    + rewrite varint_big by assumption. cbn [length].
      assert (length (varint (v/128)) <> 0)%nat by (pose proof (varint_nonempty (v/128)); destruct (varint (v/128)); cbn; congruence).
      lia.
  - replace (2 ^ (7 * N.of_nat (S (S k)))) with (128 * 2 ^ (7 * N.of_nat (S k))).
    2:{ replace (7 * N.of_nat (S (S k))) with (7 + 7 * N.of_nat (S k)) by lia. rewrite N.pow_add_r. reflexivity. }
    assert (0 < 2 ^ (7 * N.of_nat (S k))) by (apply N.neq_0_lt_0, N.pow_nonzero; discriminate).
    destruct (N.lt_ge_cases v 128).
    + rewrite varint_small by assumption. cbn [length]. split; intros; [nia|lia].
    + rewrite varint_big by assumption. cbn [length]. rewrite <- Nat.succ_le_mono, IH.
      split; intros.
      * pose proof (N.div_mod v 128). pose proof (N.mod_lt v 128). nia.
      * apply N.div_lt_upper_bound; lia.
Qed.

Lemma SizeVarint_spec : forall v, v < 2^64 -> SizeVarint v = N.of_nat (length (varint v)).
Proof.
  intros v Hv. unfold SizeVarint.
  assert (Hs : N.size v <= 64) by now apply size_le_iff.
  assert (Hle : forall k, (length (varint v) <= S k)%nat <-> N.size v <= 7 * N.of_nat (S k)).
  { intro k. rewrite size_le_iff. apply varint_length_iff. }
  assert (H0 : (1 <= length (varint v))%nat) by (pose proof (varint_nonempty v); destruct (varint v); cbn; [congruence|lia]).
  set (L := length (varint v)) in *.
  pose proof (proj1 (Hle (L - 1)%nat)) as HA.
  assert (HB : (L = 1)%nat \/ (2 <= L)%nat /\ ~ N.size v <= 7 * N.of_nat (L - 1)).
  { destruct (Nat.eq_dec L 1); [now left|right]. split; [lia|].
    intro Hc. specialize (Hle (L - 2)%nat). replace (S (L - 2)) with (L - 1)%nat in Hle by lia.
    apply Hle in Hc. lia. }
  assert (HL : (L <= 10)%nat) by now apply varint_len10.
  generalize dependent (N.size v). intros z Hz Hle HA HB.
  replace (S (L - 1)) with L in HA by lia. specialize (HA ltac:(lia)).
  destruct HB as [HB|[H2 HB]]; [rewrite HB in *|].
  - lia.
  - lia.
Qed.

(** ** Length-delimited *)
Lemma slice_from_ok : forall b n, (n <= length b)%nat -> slice_from b n = Ok (skipn n b).
Proof. intros. unfold slice_from. now replace (n <=? length b)%nat with true by lia. Qed.
Lemma slice_to_ok : forall b n, (n <= length b)%nat -> slice_to b n = Ok (firstn n b).
Proof. intros. unfold slice_to. now replace (n <=? length b)%nat with true by lia. Qed.

Lemma skipn_app_len : forall {A} (a b : list A), skipn (length a) (a ++ b) = b.
Proof. intros. rewrite skipn_app, Nat.sub_diag, skipn_all. reflexivity. Qed.
Lemma firstn_app_len : forall {A} (a b : list A), firstn (length a) (a ++ b) = a.
Proof. intros. rewrite firstn_app, Nat.sub_diag, firstn_O, app_nil_r, firstn_all. reflexivity. Qed.

Lemma slice_from_app : forall a b, slice_from (a ++ b) (length a) = Ok b.
Proof. intros. rewrite slice_from_ok by (rewrite app_length; lia). now rewrite skipn_app_len. Qed.

Lemma ConsumeBytes_valid : forall l s t, valid_varint l (blen s) ->
  ConsumeBytes (l ++ s ++ t) = Ok (s, (length l + length s)%nat).
Proof.
  intros l s t H. unfold ConsumeBytes. rewrite (ConsumeVarint_valid l _ _ H). cbn [bind].
  rewrite slice_from_app. cbn [bind]. unfold blen. rewrite app_length.
  replace (N.of_nat (length s + length t) <? N.of_nat (length s)) with false by lia.
  rewrite Nat2N.id. rewrite slice_to_ok by (rewrite app_length; lia).
  rewrite firstn_app_len. reflexivity.
Qed.

Lemma ConsumeBytes_lendelim : forall s t, blen s < 2^64 ->
  ConsumeBytes (lendelim s ++ t) = Ok (s, length (lendelim s)).
Proof.
  intros. unfold lendelim. rewrite <- app_assoc, ConsumeBytes_valid by now apply varint_valid.
  now rewrite app_length.
Qed.

Lemma ConsumeBytes_inv : forall b s n, ConsumeBytes b = Ok (s, n) ->
  exists l t, b = l ++ s ++ t /\ n = (length l + length s)%nat /\ valid_varint l (blen s).
Proof.
  intros b s n. unfold ConsumeBytes.
  destruct (ConsumeVarint b) as [[m k]| | |] eqn:E; cbn [bind]; try discriminate.
  apply ConsumeVarint_iff in E as (l & t & -> & <- & Hv). rewrite slice_from_app. cbn [bind].
  destruct (blen t <? m) eqn:Em; [discriminate|].
  unfold blen in Em. rewrite slice_to_ok by lia. cbn [bind]. intros [= <- <-].
  exists l, (skipn (N.to_nat m) t). rewrite firstn_skipn.
  assert (Hl : length (firstn (N.to_nat m) t) = N.to_nat m) by (rewrite firstn_length; lia).
  split; [reflexivity|]. split; [now rewrite Hl|]. unfold blen. rewrite Hl, N2Nat.id. exact Hv.
Qed.

Lemma ConsumeBytes_safe : forall b, ConsumeBytes b <> Panic /\ ConsumeBytes b <> OutOfFuel.
Proof.
  intro b. unfold ConsumeBytes. destruct (ConsumeVarint_no_panic b) as [H1 H2].
  destruct (ConsumeVarint b) as [[m k]| | |] eqn:E; cbn [bind]; try (split; congruence).
  apply ConsumeVarint_iff in E as (l & t & -> & <- & Hv). rewrite slice_from_app. cbn [bind].
  destruct (blen t <? m) eqn:Em; [split; discriminate|].
  unfold blen in Em. rewrite slice_to_ok by lia. split; discriminate.
Qed.

(** ** LenPack *)
Lemma upd_nth_app : forall {A} (l1 : list A) x y l2,
  upd_nth (length l1) x (l1 ++ y :: l2) = l1 ++ x :: l2.
Proof. induction l1; intros; cbn; [reflexivity|]. f_equal. apply IHl1. Qed.

Lemma LenPack_spec : forall pre body, blen body < 2^64 ->
  LenPack (LenReserve pre ++ body) (length body) = pre ++ lendelim body.
Proof.
  intros pre body H. unfold LenPack, LenReserve, lendelim. unfold blen in H.
  destruct (N.of_nat (length body) <? 128) eqn:E.
  - rewrite varint_small by lia. rewrite !app_length. cbn [length].
    replace (length pre + 1 + length body - 1 - length body)%nat with (length pre) by lia.
    rewrite <- app_assoc. cbn [app]. apply upd_nth_app.
  - unfold lenPackSlow, pw_AppendVarint. rewrite varint_switch64_spec by assumption. cbn [app].
    rewrite SizeVarint_spec by assumption. rewrite Nat2N.id.
    set (w := varint (N.of_nat (length body))) in *. set (m := length w).
    assert (Hm : (1 <= m)%nat).
    { unfold m. pose proof (varint_nonempty (N.of_nat (length body))). fold w in H0. destruct w; cbn; [congruence|lia]. }
    set (z := repeat Byte.x00 (m - 1)).
    assert (Hz : length z = (m - 1)%nat) by apply repeat_length.
    cbv zeta. rewrite !app_length. cbn [length]. rewrite Hz.
    replace (length pre + 1 + length body + (m - 1) - length body - m)%nat with (length pre) by lia.
    replace (Nat.min (length pre + 1 + length body + (m - 1) - (length pre + m))
              (length pre + 1 + length body + (m - 1) - (length pre + 1)))%nat with (length body) by lia.
    (* pieces *)
    assert (E1 : skipn (length pre + 1) (((pre ++ [Byte.x00]) ++ body) ++ z) = body ++ z).
    { rewrite <- !app_assoc. replace (length pre + 1)%nat with (length (pre ++ [Byte.x00])) by (rewrite app_length; reflexivity).
      rewrite (app_assoc pre). apply skipn_app_len. }
    rewrite E1. rewrite firstn_app_len.
    assert (E2 : skipn (length pre + m + length body) (((pre ++ [Byte.x00]) ++ body) ++ z) = []).
    { apply skipn_all2. rewrite !app_length. cbn [length]. lia. }
    rewrite E2, app_nil_r.
    set (h := firstn (length pre + m) (((pre ++ [Byte.x00]) ++ body) ++ z)).
    assert (Hh : length h = (length pre + m)%nat).
    { unfold h. rewrite firstn_length, !app_length. cbn [length]. lia. }
    assert (E3 : firstn (length pre) (h ++ body) = pre).
    { rewrite firstn_app. replace (length pre - length h)%nat with 0%nat by lia.
      rewrite firstn_O, app_nil_r. unfold h. rewrite firstn_firstn. rewrite Nat.min_l by lia.
      rewrite <- !app_assoc. apply firstn_app_len. }
    rewrite E3. f_equal. f_equal. rewrite <- Hh. apply skipn_app_len.
Qed.

(** ** Tags *)
Lemma land7 : forall v, N.land v 7 = v mod 8.
Proof. intro. change 7 with (N.ones 3). now rewrite N.land_ones. Qed.
Lemma shr3 : forall v, N.shiftr v 3 = v / 8.
Proof. intro. now rewrite N.shiftr_div_pow2. Qed.

Lemma EncodeTag_spec : forall num t, (0 <= num < 2^31)%Z -> t < 8 ->
  EncodeTag num t = 8 * Z.to_N num + t.
Proof.
  intros. unfold EncodeTag, i32_u64, wrap64. rewrite N.lor_comm.
  rewrite N.shiftl_mul_pow2. change (2^3) with 8.
  rewrite (N.mod_small (Z.to_N (num mod 2^64) * 8)) by lia.
  replace (Z.to_N (num mod 2^64)) with (Z.to_N num) by lia.
  change 8 with (2^3) at 1. rewrite <- N.shiftl_mul_pow2. rewrite lor_disjoint by assumption.
  change (2^3) with 8. lia.
Qed.

Lemma EncodeTag_lt : forall num t, (0 <= num < 2^31)%Z -> t < 8 -> EncodeTag num t < 2^34.
Proof. intros. rewrite EncodeTag_spec by assumption. lia. Qed.

Lemma tag_valid : forall num typ, num < 2^31 -> typ < 8 -> valid_varint (tag num typ) (8 * num + typ).
Proof. intros. apply varint_valid. lia. Qed.

Lemma ConsumeTag_valid : forall t v num typ r, valid_varint t v -> v = 8 * num + typ ->
  typ < 8 -> 1 <= num < 2^31 -> ConsumeTag (t ++ r) = Ok (num, typ, length t).
Proof.
  intros t v num typ r Hv -> Ht Hn. unfold ConsumeTag. rewrite (ConsumeVarint_valid _ _ _ Hv).
  cbn [bind]. rewrite land7, shr3.
  replace ((8 * num + typ) / 8) with num by lia. replace ((8 * num + typ) mod 8) with typ by lia.
  replace (2^31 - 1 <? num) with false by lia. replace (num <? 1) with false by lia. reflexivity.
Qed.

Lemma ConsumeTag_inv : forall b num typ n, ConsumeTag b = Ok (num, typ, n) ->
  exists t r, b = t ++ r /\ length t = n /\ (1 <= n <= 10)%nat /\ valid_varint t (8 * num + typ) /\
    typ < 8 /\ 1 <= num < 2^31.
Proof.
  intros b num typ n. unfold ConsumeTag.
  destruct (ConsumeVarint b) as [[v k]| | |] eqn:E; cbn [bind]; try discriminate.
  destruct (ConsumeVarint_inv _ _ _ E) as (Hk & _ & _ & _).
  apply ConsumeVarint_iff in E as (l & t & -> & Hl & Hv).
  rewrite shr3, land7. destruct (2^31 - 1 <? v / 8) eqn:E1; [discriminate|].
  destruct (v / 8 <? 1) eqn:E2; [discriminate|]. intros [= <- <- <-].
  exists l, t. replace (8 * (v / 8) + v mod 8) with v by lia.
  split; [reflexivity|]. split; [assumption|]. split; [lia|]. split; [assumption|]. lia.
Qed.

Lemma ConsumeTag_safe : forall b, ConsumeTag b <> Panic /\ ConsumeTag b <> OutOfFuel.
Proof.
  intro b. unfold ConsumeTag. destruct (ConsumeVarint_no_panic b).
  destruct (ConsumeVarint b) as [[v k]| | |]; cbn [bind]; try (split; congruence).
  destruct (_ <? _); [split; congruence|]. destruct (_ <? _); split; congruence.
Qed.

(** ** Field values and groups *)
Scheme payload_mind := Induction for payload Sort Prop
  with group_body_mind := Induction for group_body Sort Prop.
Combined Scheme payload_group_ind from payload_mind, group_body_mind.

Definition depth_ok (d : nat) (D : Z) : Prop := d = 0%nat \/ (Z.of_nat d <= D + 1)%Z.

Lemma valid_varint_len : forall l v, valid_varint l v -> (1 <= length l)%nat.
Proof. intros l v (H & _). destruct l; [discriminate|cbn; lia]. Qed.

Lemma consume_complete :
  (forall num typ p d, payload num typ p d -> forall fuel t D, (length p + 2 <= fuel)%nat ->
     depth_ok d D -> consumeFieldValueD fuel num typ (p ++ t) D = Ok (length p)) /\
  (forall num p d, group_body num p d -> forall f fuel t D, (length p + 1 <= f)%nat ->
     (length p + 1 <= fuel)%nat -> depth_ok d (D - 1) ->
     group_loop (consumeFieldValueD f) fuel num (p ++ t) D = Ok (length p)).
Proof.
  apply payload_group_ind.
  - intros num bs v Hv fuel t D Hf Hd. destruct fuel as [|fuel]; [lia|]. cbn [consumeFieldValueD].
    change (0 =? WVarint) with true. cbv iota. now rewrite (ConsumeVarint_valid _ _ _ Hv).
  - intros num bs Hl fuel t D Hf Hd. destruct fuel as [|fuel]; [lia|]. cbn [consumeFieldValueD].
    change (1 =? WVarint) with false. change (1 =? WFixed32) with false. change (1 =? WFixed64) with true. cbv iota.
    rewrite ConsumeFixed64_app by assumption. cbn [bind]. now rewrite Hl.
  - intros num l s v Hv -> fuel t D Hf Hd. destruct fuel as [|fuel]; [lia|]. cbn [consumeFieldValueD].
    change (2 =? WVarint) with false. change (2 =? WFixed32) with false. change (2 =? WFixed64) with false.
    change (2 =? WBytes) with true. cbv iota.
    rewrite <- app_assoc, ConsumeBytes_valid by assumption. cbn [bind]. now rewrite app_length.
  - intros num body d Hb IH fuel t D Hf Hd. destruct fuel as [|fuel]; [lia|]. cbn [consumeFieldValueD].
    change (3 =? WVarint) with false. change (3 =? WFixed32) with false. change (3 =? WFixed64) with false.
    change (3 =? WBytes) with false. change (3 =? WSGroup) with true. cbv iota.
    destruct Hd as [Hd|Hd]; [lia|]. replace (D <? 0)%Z with false by lia.
    apply IH; [lia|lia|]. unfold depth_ok. lia.
  - intros num bs Hl fuel t D Hf Hd. destruct fuel as [|fuel]; [lia|]. cbn [consumeFieldValueD].
    change (5 =? WVarint) with false. change (5 =? WFixed32) with true. cbv iota.
    rewrite ConsumeFixed32_app by assumption. cbn [bind]. now rewrite Hl.
  - intros num t v Hv Hv2 Hn f fuel r D Hf1 Hf2 Hd. destruct fuel as [|fuel]; [lia|]. cbn [group_loop].
    rewrite (ConsumeTag_valid t v num 4) by (assumption || lia). cbn [bind].
    rewrite slice_from_app. cbn [bind]. change (4 =? WEGroup) with true. cbv iota.
    now rewrite N.eqb_refl.
  - intros num t v num2 typ p rest d1 d2 Hv Hv2 Ht Hn Hp IHp Hg IHg f fuel r D Hf1 Hf2 Hd.
    destruct fuel as [|fuel]; [lia|]. cbn [group_loop]. rewrite <- !app_assoc.
    rewrite !app_length in *. pose proof (valid_varint_len _ _ Hv).
    rewrite (ConsumeTag_valid t v num2 typ) by assumption. cbn [bind].
    rewrite slice_from_app. cbn [bind].
    assert (Htyp : typ <> 4) by (intros ->; inversion Hp).
    replace (typ =? WEGroup) with false by (unfold WEGroup; lia).
    rewrite IHp; [|lia|unfold depth_ok in *; lia]. cbn [bind].
    rewrite slice_from_app. cbn [bind].
    rewrite IHg; [|lia|lia|unfold depth_ok in *; lia]. cbn [bind]. f_equal. lia.
Qed.

Lemma consume_sound : forall fuel,
  (forall num typ b D n, consumeFieldValueD fuel num typ b D = Ok n ->
     exists p t d, b = p ++ t /\ length p = n /\ payload num typ p d /\ depth_ok d D) /\
  (forall f num b D n, (f <= fuel)%nat -> (0 <= D)%Z ->
     group_loop (consumeFieldValueD fuel) f num b D = Ok n ->
     exists p t d, b = p ++ t /\ length p = n /\ group_body num p d /\ depth_ok d (D - 1)).
Proof.
  induction fuel as [|fuel [IH1 IH2]].
  - split; [discriminate|]. intros [|f] num b D n Hf; [discriminate|lia].
  - assert (P1 : forall num typ b D n, consumeFieldValueD (S fuel) num typ b D = Ok n ->
     exists p t d, b = p ++ t /\ length p = n /\ payload num typ p d /\ depth_ok d D).
    { intros num typ b D n. cbn [consumeFieldValueD]. unfold WVarint, WFixed32, WFixed64, WBytes, WSGroup.
      destruct (typ =? 0) eqn:E0.
      { destruct (ConsumeVarint b) as [[v k]| | |] eqn:E; cbn [bind]; try discriminate. intros [= <-].
        apply ConsumeVarint_iff in E as (l & t & -> & <- & Hv). apply N.eqb_eq in E0 as ->.
        exists l, t, 0%nat. repeat split; [econstructor; eassumption|now left]. }
      destruct (typ =? 5) eqn:E5.
      { destruct (ConsumeFixed32_inv b _ eq_refl) as [(s & t & -> & Hl & ->)|(_ & ->)]; cbn [bind]; [|discriminate].
        intros [= <-]. apply N.eqb_eq in E5 as ->. exists s, t, 0%nat. repeat split; auto; [now constructor|now left]. }
      destruct (typ =? 1) eqn:E1.
      { destruct (ConsumeFixed64_inv b _ eq_refl) as [(s & t & -> & Hl & ->)|(_ & ->)]; cbn [bind]; [|discriminate].
        intros [= <-]. apply N.eqb_eq in E1 as ->. exists s, t, 0%nat. repeat split; auto; [now constructor|now left]. }
      destruct (typ =? 2) eqn:E2.
      { destruct (ConsumeBytes b) as [[v k]| | |] eqn:E; cbn [bind]; try discriminate. intros [= <-].
        apply ConsumeBytes_inv in E as (l & t & -> & -> & Hv). apply N.eqb_eq in E2 as ->.
        exists (l ++ v), t, 0%nat. rewrite app_assoc, app_length. repeat split; [econstructor; [eassumption|reflexivity]|now left]. }
      destruct (typ =? 3) eqn:E3.
      { destruct (D <? 0)%Z eqn:ED; [discriminate|]. intro H.
        apply IH2 in H as (p & t & d & -> & <- & Hg & Hd); [|lia|lia].
        apply N.eqb_eq in E3 as ->. exists p, t, (S d). repeat split; [now constructor|].
        unfold depth_ok in *. lia. }
      destruct (typ =? WEGroup); discriminate. }
    split; [exact P1|].
    induction f as [|f IHf]; intros num b D n Hf HD; [discriminate|].
    cbn [group_loop].
    destruct (ConsumeTag b) as [[[num2 typ2] k]| | |] eqn:E; cbn [bind]; try discriminate.
    apply ConsumeTag_inv in E as (t & r & -> & <- & Hk & Hv & Ht & Hn).
    rewrite slice_from_app. cbn [bind]. unfold WEGroup.
    destruct (typ2 =? 4) eqn:E4.
    { destruct (num =? num2) eqn:En; [|discriminate]. intros [= <-].
      apply N.eqb_eq in E4 as ->. apply N.eqb_eq in En as <-.
      exists t, r, 0%nat. repeat split; [econstructor; eauto|now left]. }
    destruct (consumeFieldValueD (S fuel) num2 typ2 r (D - 1)) as [m| | |] eqn:Em; cbn [bind]; try discriminate.
    apply P1 in Em as (p & u & d1 & -> & <- & Hp & Hd1).
    rewrite slice_from_app. cbn [bind].
    destruct (group_loop (consumeFieldValueD (S fuel)) f num u D) as [q| | |] eqn:Eq; cbn [bind]; try discriminate.
    intros [= <-]. apply IHf in Eq as (g & w & d2 & -> & <- & Hg & Hd2); [|lia|assumption].
    exists (t ++ p ++ g), w, (Nat.max d1 d2). rewrite <- !app_assoc, !app_length.
    repeat split; [lia|econstructor; eauto|]. unfold depth_ok in *. lia.
Qed.

Lemma consume_safe : forall fuel,
  (forall num typ b D, (length b + 2 <= fuel)%nat ->
     consumeFieldValueD fuel num typ b D <> Panic /\ consumeFieldValueD fuel num typ b D <> OutOfFuel) /\
  (forall f num b D, (length b + 1 <= fuel)%nat -> (length b + 1 <= f)%nat ->
     group_loop (consumeFieldValueD fuel) f num b D <> Panic /\
     group_loop (consumeFieldValueD fuel) f num b D <> OutOfFuel).
Proof.
  induction fuel as [|fuel [IH1 IH2]].
  - split; intros; lia.
  - assert (P1 : forall num typ b D, (length b + 2 <= S fuel)%nat ->
       consumeFieldValueD (S fuel) num typ b D <> Panic /\ consumeFieldValueD (S fuel) num typ b D <> OutOfFuel).
    { intros num typ b D Hf. cbn [consumeFieldValueD].
      destruct (typ =? WVarint).
      { destruct (ConsumeVarint_no_panic b). destruct (ConsumeVarint b) as [[? ?]| | |]; cbn [bind]; split; congruence. }
      destruct (typ =? WFixed32).
      { destruct (ConsumeFixed32_inv b _ eq_refl) as [(s & t & _ & _ & ->)|(_ & ->)]; cbn [bind]; split; congruence. }
      destruct (typ =? WFixed64).
      { destruct (ConsumeFixed64_inv b _ eq_refl) as [(s & t & _ & _ & ->)|(_ & ->)]; cbn [bind]; split; congruence. }
      destruct (typ =? WBytes).
      { destruct (ConsumeBytes_safe b). destruct (ConsumeBytes b) as [[? ?]| | |]; cbn [bind]; split; congruence. }
      destruct (typ =? WSGroup).
      { destruct (D <? 0)%Z; [split; congruence|]. apply IH2; lia. }
      destruct (typ =? WEGroup); split; congruence. }
    split; [exact P1|].
    induction f as [|f IHf]; intros num b D Hf1 Hf2; [lia|]. cbn [group_loop].
    destruct (ConsumeTag_safe b).
    destruct (ConsumeTag b) as [[[num2 typ2] k]| | |] eqn:E; cbn [bind]; try (split; congruence).
    apply ConsumeTag_inv in E as (t & r & -> & <- & Hk & Hv & Ht & Hn).
    rewrite app_length in *. rewrite slice_from_app. cbn [bind].
    destruct (typ2 =? WEGroup). { destruct (num =? num2); split; congruence. }
    destruct (P1 num2 typ2 r (D - 1)%Z ltac:(lia)).
    destruct (consumeFieldValueD (S fuel) num2 typ2 r (D - 1)) as [m| | |] eqn:Em; cbn [bind]; try (split; congruence).
    apply (proj1 (consume_sound _)) in Em as (p & u & d1 & -> & <- & Hp & Hd1).
    rewrite app_length in *. rewrite slice_from_app. cbn [bind].
    destruct (IHf num u D ltac:(lia) ltac:(lia)).
    destruct (group_loop (consumeFieldValueD (S fuel)) f num u D); cbn [bind]; split; congruence.
Qed.

Lemma ConsumeFieldValue_iff : forall num typ b n,
  ConsumeFieldValue num typ b = Ok n <->
  exists p t d, b = p ++ t /\ length p = n /\ payload num typ p d /\ N.of_nat d <= 10001.
Proof.
  intros. unfold ConsumeFieldValue, DefaultRecursionLimit. split.
  - intro H. apply (proj1 (consume_sound _)) in H as (p & t & d & H1 & H2 & H3 & H4).
    exists p, t, d. unfold depth_ok in H4. repeat split; auto. lia.
  - intros (p & t & d & -> & <- & Hp & Hd).
    apply (proj1 consume_complete _ _ _ _ Hp); [rewrite app_length; lia|unfold depth_ok; lia].
Qed.

Lemma ConsumeFieldValue_safe : forall num typ b,
  ConsumeFieldValue num typ b <> Panic /\ ConsumeFieldValue num typ b <> OutOfFuel.
Proof. intros. apply (proj1 (consume_safe _)). lia. Qed.

(** Payloads are self-delimiting: two payloads that start the same input are equal. *)
Lemma payload_prefix_unique : forall num typ p1 d1 t1 p2 d2 t2,
  payload num typ p1 d1 -> payload num typ p2 d2 -> p1 ++ t1 = p2 ++ t2 -> p1 = p2 /\ t1 = t2.
Proof.
  intros num typ p1 d1 t1 p2 d2 t2 H1 H2 E.
  set (D := Z.of_nat (Nat.max d1 d2)). set (F := (length (p1 ++ t1) + 2)%nat).
  assert (A1 : consumeFieldValueD F num typ (p1 ++ t1) D = Ok (length p1)).
  { apply (proj1 consume_complete _ _ _ _ H1); [unfold F; rewrite app_length; lia|unfold depth_ok, D; lia]. }
  assert (A2 : consumeFieldValueD F num typ (p2 ++ t2) D = Ok (length p2)).
  { apply (proj1 consume_complete _ _ _ _ H2); [unfold F; rewrite E, app_length; lia|unfold depth_ok, D; lia]. }
  rewrite E in A1. rewrite A1 in A2. injection A2 as El.
  assert (p1 = p2).
  { rewrite <- (firstn_app_len p1 t1), <- (firstn_app_len p2 t2). now rewrite E, El. }
  subst p2. split; [reflexivity|]. now apply app_inv_head in E.
Qed.
