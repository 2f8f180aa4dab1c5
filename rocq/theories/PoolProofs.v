(** The content of the pooled temporaries does not matter. *)
From Verif Require Import Base Wire WireSpec Coder MapTables Value WireVal Desc MsgSpec ValFacts ScalarProofs Encoder EncProofs Decoder DescProofs DecSpec DecScalar DecMap DecProofs.
From Coq Require Import Lia.
Open Scope N_scope.

Lemma dec_scalar_indep : forall tag t typ b v1 v2, leaf_ok tag t = true ->
  dec_scalar tag t typ b v1 = dec_scalar tag t typ b v2.
Proof.
  intros tag t typ b v1 v2 H. unfold dec_scalar.
  destruct t as [k| | | | | | | |]; try discriminate H.
  - cbn [leaf_ok kindOf] in *.
    destruct (typ =? WVarint).
    { destruct (is_varint_tag tag) eqn:T; cbn [negb]; [|reflexivity].
      destruct (ConsumeVarint b) as [[u n]| | |]; cbn [bind]; try reflexivity.
      destruct tag, k; try discriminate H; try discriminate T; reflexivity. }
    destruct (typ =? WFixed32).
    { destruct (tag_eqb tag TagFixed32) eqn:T; cbn [negb]; [|reflexivity].
      destruct (ConsumeFixed32 b) as [[u n]| | |]; cbn [bind]; try reflexivity.
      destruct tag, k; try discriminate H; try discriminate T; reflexivity. }
    destruct (typ =? WFixed64); [|reflexivity].
    destruct (tag_eqb tag TagFixed64) eqn:T; cbn [negb]; [|reflexivity].
    destruct (ConsumeFixed64 b) as [[u n]| | |]; cbn [bind]; try reflexivity.
    destruct tag, k; try discriminate H; try discriminate T; reflexivity.
  - cbn [leaf_ok] in H. destruct tag; try discriminate H. cbn [is_varint_tag tag_eqb negb]. reflexivity.
  - cbn [leaf_ok] in H. destruct tag; try discriminate H. cbn [is_varint_tag tag_eqb negb]. reflexivity.
Qed.

Section Pool.
Variable E : env.

(** Equal up to the memory left by an error, or up to the temporaries. *)
Definition eq_value (r1 r2 : dres unit) : Prop :=
  r1 = r2 \/ exists v1 v2 e, r1 = DErr v1 e /\ r2 = DErr v2 e.
Definition eq_tmv {A} (r1 r2 : dres (A * nat)) : Prop :=
  r1 = r2 \/ exists v t1 t2 n, r1 = DOk v (t1, n) /\ r2 = DOk v (t2, n).

Section Rec.
Variables rec1 rec2 : nat -> Z -> bytes -> val -> dres unit.
Hypothesis REC : forall id D b v, rec1 id D b v = rec2 id D b v.

Lemma DecodeMapKey_indep : forall f kt b k1 k2, key_ok (f_ktag f) kt = true ->
  DecodeMapKey f kt b k1 = DecodeMapKey f kt b k2.
Proof.
  intros f kt b k1 k2 H. unfold DecodeMapKey. destruct (ConsumeKVTag b) as [[n t]|]; [|reflexivity].
  destruct n as [|[|[]|]]; try reflexivity. destruct (slice_from b 1) as [b1| | |]; cbn [bind]; try reflexivity.
  now rewrite (dec_scalar_indep _ _ _ _ k1 k2 (key_ok_leaf _ _ H)).
Qed.

Lemma DecodeMapValue_indep : forall f vt D b v1 v2, elem_ok (f_vtag f) vt = true ->
  (by_value vt = true -> v1 = v2) ->
  eq_value (DecodeMapValue E rec1 f vt D b v1) (DecodeMapValue E rec2 f vt D b v2).
Proof.
  intros f vt D b v1 v2 H HV. unfold DecodeMapValue.
  assert (X : let '(t1, p1, put1) := mallocIfPointer E vt v1 in let '(t2, p2, put2) := mallocIfPointer E vt v2 in
     t1 = t2 /\ put1 = put2 /\ (p1 = p2 \/ leaf_ok (f_vtag f) t1 = true)).
  { destruct vt; cbn [mallocIfPointer]; try discriminate H; auto. }
  destruct (ConsumeKVTag b) as [[n typ]|]; [|right; eauto].
  destruct n as [|[[]|[|[]|]|]]; try (right; do 3 eexists; split; reflexivity).
  destruct (mallocIfPointer E vt v1) as [[t1 p1] put1], (mallocIfPointer E vt v2) as [[t2 p2] put2].
  destruct X as (<- & <- & X).
  destruct (slice_from b 1) as [b1|e| |]; cbn [dbind]; [|right; eauto|now left|now left].
  assert (DS : dec_scalar (f_vtag f) t1 typ b1 p1 = dec_scalar (f_vtag f) t1 typ b1 p2).
  { destruct X as [->|X]; [reflexivity|now apply dec_scalar_indep]. }
  rewrite DS. destruct (dec_scalar (f_vtag f) t1 typ b1 p2) as [[[p' m]|e| |]|]; cbn [dbind];
    [now left|right; eauto|now left|now left|].
  destruct (typ =? WBytes); [|right; eauto].
  destruct (ConsumeBytes b1) as [[fb m]|e| |]; cbn [dbind]; [|right; eauto|now left|now left].
  destruct t1; try (now left); try (right; eauto; fail).
  destruct X as [->|X]; [|discriminate X]. rewrite REC. now left.
Qed.

Lemma DecodeMapPair_indep : forall f kt vt D b p tmp1 tmp2, key_ok (f_ktag f) kt = true -> elem_ok (f_vtag f) vt = true ->
  DecodeMapPair E rec1 f kt vt D b p tmp1 = DecodeMapPair E rec2 f kt vt D b p tmp2.
Proof.
  intros f kt vt D b p tmp1 tmp2 HK HV. unfold DecodeMapPair.
  assert (R : by_value vt = true -> snd (tmp_reset E vt tmp1) = snd (tmp_reset E vt tmp2)) by (destruct vt; easy).
  destruct p; try reflexivity.
  rewrite (DecodeMapKey_indep f kt b (fst (tmp_reset E vt tmp1)) (fst (tmp_reset E vt tmp2)) HK).
  destruct (DecodeMapKey f kt b _) as [[k n]|e| |]; cbn [dbind]; try reflexivity.
  destruct (slice_from b n) as [b1|e| |]; cbn [dbind]; try reflexivity.
  destruct (DecodeMapValue_indep f vt D b1 _ _ HV R) as [->|(v1 & v2 & e & -> & ->)]; reflexivity.
Qed.

Lemma dec_value_indep : forall f t typ D b g1 g2 t1 t2 p, supported f = true ->
  eq_tmv (dec_value E rec1 f t typ D b g1 t1 p) (dec_value E rec2 f t typ D b g2 t2 p).
Proof.
  intros f t typ D b g1 g2 t1 t2 p SP. unfold dec_value.
  destruct (dec_scalar (f_tag f) t typ b p) as [[[p' n]|e| |]|]; cbn [dbind];
    [right; eauto 8|now left|now left|now left|].
  destruct (typ =? WBytes); [|now left].
  destruct (ConsumeBytes b) as [[fb n]|e| |]; cbn [dbind]; [|now left|now left|now left].
  destruct t; try (now left); try (right; do 4 eexists; split; reflexivity).
  - rewrite REC. destruct (rec2 id (D - 1)%Z fb p); try (now left). right; do 4 eexists; split; reflexivity.
  - destruct (f_T f) as [| | | | | |kt vt| |] eqn:HT; try (now left).
    destruct (getMapDecodeFunc f) as [row|].
    + destruct p; try (now left). destruct (DecodeMapKV row fb) as [[k v]|e| |]; cbn [dbind]; try (now left).
      right; do 4 eexists; split; reflexivity.
    + unfold supported in SP. rewrite HT in SP. rewrite !andb_true_iff in SP. destruct SP as [[[[[_ _] _] _] HK] HV].
      rewrite (DecodeMapPair_indep f kt vt (D - 1)%Z fb p (match t1 with Some x => x | None => g1 end) (match t2 with Some x => x | None => g2 end) HK HV).
      destruct (DecodeMapPair E rec2 f kt vt (D - 1)%Z fb p _); now left.
Qed.
Lemma eq_tmv_dmap : forall {A} put (r1 r2 : dres (A * nat)), eq_tmv r1 r2 -> eq_tmv (dmap put r1) (dmap put r2).
Proof. intros A put r1 r2 [->|(v & a & c & n & -> & ->)]; [now left|]. right. cbn. eauto 8. Qed.

Lemma dec_field_indep : forall f typ D b g1 g2 t1 t2 slot, supported f = true ->
  eq_tmv (dec_field E rec1 f typ D b g1 t1 slot) (dec_field E rec2 f typ D b g2 t2 slot).
Proof.
  intros f typ D b g1 g2 t1 t2 slot SP. unfold dec_field.
  destruct (match f_oneof f with Some w => _ | None => _ end) as [p put0].
  destruct (mallocIfPointer E (f_T f) p) as [[t p1] put1]. apply eq_tmv_dmap.
  destruct (f_rep f); [|now apply dec_value_indep].
  destruct t; try (now apply dec_value_indep).
  destruct ((typ =? WBytes) && f_packed f).
  - destruct (packedDecoderFuncs (packedCoder f)) as [g|]; [|now left].
    destruct (ConsumeBytes b) as [[fb n]|e| |]; cbn [dbind]; try (now left).
    destruct (g fb) as [l|e| |]; cbn [dbind]; try (now left). right; do 4 eexists; split; reflexivity.
  - destruct p1; try (now left). destruct (grow E t elems spare) as [|e0 sp]; [now left|].
    destruct (mallocIfPointer E t e0) as [[t' p'] put2]. apply eq_tmv_dmap. now apply dec_value_indep.
Qed.
End Rec.

Hypothesis WF : wf_env E.

Lemma loop_indep : forall rec1 rec2, (forall r id D b v, rec1 r id D b v = rec2 r id D b v) ->
  forall fuel id D g1 g2 f t1 t2 slots unk b, (forall f0, f = Some f0 -> In f0 (sd_fields (E id))) ->
  decode_loop E rec1 fuel (E id) D g1 f t1 slots unk b = decode_loop E rec2 fuel (E id) D g2 f t2 slots unk b.
Proof.
  intros rec1 rec2 REC fuel. induction fuel as [|fuel IH]; intros id D g1 g2 f t1 t2 slots unk b HF; [destruct b; reflexivity|].
  cbn [decode_loop]. destruct b as [|c b]; [reflexivity|].
  destruct (ConsumeTag (c :: b)) as [[[num typ] n]|e| |]; cbn [dbind]; try reflexivity.
  destruct (slice_from (c :: b) n) as [b1|e| |]; cbn [dbind]; try reflexivity.
  set (cached := match f with Some f0 => if (f_id f0 =? Z.of_N num)%Z then Some f0 else None | None => None end).
  set (hit := match cached with Some _ => true | None => false end).
  destruct (if hit then Some cached else GetField (E id) (Z.of_N num)) as [[f'|]|] eqn:L; [| |reflexivity].
  - assert (HI : In f' (sd_fields (E id))).
    { destruct hit eqn:HH.
      - injection L as L. subst cached. destruct f as [f0|]; [|discriminate].
        destruct (f_id f0 =? Z.of_N num)%Z; [|discriminate]. injection L as <-. now apply HF.
      - rewrite (wf_GetField E (fun _ _ => True) WF) in L. injection L as L. 
        apply declared_iff in L; [apply L|]. apply sorted_nodup. apply (wf_sorted _ _ (WF id)). }
    destruct (nth_error slots (f_slot f')) as [slot|]; [|reflexivity].
    destruct (dec_field_indep (rec1 (c :: b)) (rec2 (c :: b)) (REC (c :: b)) f' typ D b1 (g1 (c :: b) f') (g2 (c :: b) f')
      (if hit then t1 else None) (if hit then t2 else None) slot (wf_supported E WF id f' HI)) as [->|(v & a & a' & m & -> & ->)].
    + destruct (dec_field E (rec2 (c :: b)) f' typ D b1 _ _ slot) as [slot' [tmv' m]|v e| |]; try reflexivity.
      destruct (slice_from b1 m) as [b2|e| |]; cbn [dbind]; try reflexivity.
      apply IH. intros f0 X. injection X as <-. assumption.
    + destruct (slice_from b1 m) as [b2|e| |]; cbn [dbind]; try reflexivity.
      apply IH. intros f0 X. injection X as <-. assumption.
  - destruct (ConsumeFieldValue num typ b1) as [m|e| |]; cbn [dbind]; try reflexivity.
    destruct (slice_from b1 m) as [b2|e| |]; cbn [dbind]; try reflexivity.
    destruct (slice_to (c :: b) (n + m)) as [raw|e| |]; cbn [dbind]; try reflexivity.
    apply IH. discriminate.
Qed.

Lemma DecodeStruct_indep : forall fuel path1 path2 P1 P2 id D b v,
  DecodeStruct E fuel path1 P1 id D b v = DecodeStruct E fuel path2 P2 id D b v.
Proof.
  induction fuel as [|fuel IH]; intros path1 path2 P1 P2 id D b v; [reflexivity|]. cbn [DecodeStruct].
  destruct (D =? 0)%Z; [reflexivity|]. destruct v; try reflexivity.
  apply loop_indep; [|discriminate]. intros r id' D' b' v'. apply IH.
Qed.
Lemma Unmarshal_indep : forall P1 P2 b a, Unmarshal E P1 b a = Unmarshal E P2 b a.
Proof. intros P1 P2 b [| |id [v|]]; try reflexivity. apply DecodeStruct_indep. Qed.
End Pool.
