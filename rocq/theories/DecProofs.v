(** DecodeStruct against the decoding specification: soundness, completeness, typing. *)
From Verif Require Import Base Wire WireSpec WireProofs WireConsume WireFacts Coder MapTables Value WireVal Desc MsgSpec ValFacts ScalarProofs Encoder EncProofs Decoder DescProofs DecSpec DecScalar DecMap.
From Coq Require Import Lia ZifyBool ZifyNat ZifyN Init.Byte.
Open Scope N_scope.

Lemma Forall2_upd : forall {A B} (R : A -> B -> Prop) l1 l2 n a b, Forall2 R l1 l2 -> nth_error l1 n = Some a ->
  R a b -> Forall2 R l1 (upd_nth n b l2).
Proof.
  intros A B R l1 l2 n a b F. revert n.
  induction F as [|x y l1 l2 XY F IH]; intros [|n] H HR; try discriminate; cbn [upd_nth nth_error] in *.
  - injection H as ->. constructor; assumption.
  - constructor; [assumption|]. now apply IH.
Qed.

Section Dec.
Variable E : env.
Variable Q : nat -> bytes -> Prop.
Hypothesis WF : wf_env E.
Notation wtg := (MsgSpec.wtg E Q).

Lemma wtg_up : forall u t v, wtg u t v -> wtg true t v.
Proof. intros u t v. apply wtg_weaken; auto. Qed.
Lemma wtg_or : forall u u' t v, wtg u t v -> wtg (u || u') t v.
Proof. intros u u' t v. apply wtg_weaken; auto. now intros ->. Qed.

Lemma unset_typed : forall u t, wtg (u || noscan t) t (unset E t).
Proof.
  intros u t. unfold unset. destruct (noscan t) eqn:N.
  - cbn. now rewrite orb_true_r, N.
  - apply wt_zero, WF.
Qed.
Lemma fresh_unset : forall t, fresh E t = unset E t.
Proof. reflexivity. Qed.

Section Rec.
Variable rec : nat -> Z -> bytes -> val -> dres unit.
Variable L : nat.
(** What is known of the recursive calls, on inputs shorter than [L]. *)
Hypothesis Rec1 : forall id D b x x', (length b < L)%nat -> decodes E D id b x x' -> rec id D b x = DOk x' tt.
Hypothesis Rec2 : forall id D b x u, (length b < L)%nat -> wtg u (TStruct id) x ->
  match rec id D b x with
  | DOk x' _ => decodes E D id b x x' /\ wtg u (TStruct id) x'
  | DErr x' _ => wtg true (TStruct id) x'
  | _ => False
  end.

(** ** Singular values *)
Lemma dec_value_leaf : forall f t typ D b get tmv x, leaf_ok (f_tag f) t = true ->
  dec_value E rec f t typ D b get tmv x =
    match leaf_read (f_tag f) t typ b x with
    | Ok (v, n) => DOk v (tmv, n) | Err e => DErr x e | Panic => DPanic | OutOfFuel => DFuel
    end.
Proof. clear Rec1 Rec2.
  intros f t typ D b get tmv x H. unfold dec_value, leaf_read.
  destruct (dec_scalar (f_tag f) t typ b x) as [[[v n]| | |]|]; try reflexivity.
  destruct (typ =? WBytes); [|reflexivity].
  destruct (ConsumeBytes b) as [[fb n]| | |]; try reflexivity.
  destruct t; try discriminate H; reflexivity.
Qed.

Lemma dec_value_struct : forall f id typ D b get tmv x, f_tag f = TagBytes ->
  dec_value E rec f (TStruct id) typ D b get tmv x =
    if typ =? 2 then
      match ConsumeBytes b with
      | Ok (fb, n) => match rec id (D - 1)%Z fb x with
                      | DOk x' _ => DOk x' (tmv, n) | DErr x' e => DErr x' e | DPanic => DPanic | DFuel => DFuel end
      | Err e => DErr x e | Panic => DPanic | OutOfFuel => DFuel
      end
    else DErr x EWireType.
Proof. clear Rec1 Rec2.
  intros f id typ D b get tmv x H. unfold dec_value. rewrite H.
  destruct (dec_scalar_bytes (TStruct id) typ b x) as [X|[X _]]; rewrite X; cbn [dbind]; unfold WBytes.
  - destruct (N.eqb_spec typ 2) as [->|]; [discriminate X|reflexivity].
  - destruct (typ =? 2); [|reflexivity]. destruct (ConsumeBytes b) as [[fb n]| | |]; reflexivity.
Qed.

Lemma value_ok_cases : forall tag t, value_ok tag t = true ->
  leaf_ok tag t = true \/ (tag = TagBytes /\ exists id, t = TStruct id).
Proof. clear Rec1 Rec2.
  intros tag t H. destruct t as [k| | |id|t| | | |]; cbn in *; try discriminate H; auto.
  right. destruct tag; try discriminate H. eauto.
Qed.

Lemma consumed_shorter : forall l s (r : bytes), valid_varint l (blen s) -> (length s < length (l ++ s ++ r))%nat.
Proof. clear Rec1 Rec2. intros l s r V. apply valid_varint_length in V. rewrite !app_length. lia. Qed.

Lemma dec_value1 : forall f t typ D p r get tmv x x', value_ok (f_tag f) t = true -> (length (p ++ r) <= L)%nat ->
  reads E D false (f_tag f) t typ p x x' -> dec_value E rec f t typ D (p ++ r) get tmv x = DOk x' (tmv, length p).
Proof.
  clear Rec2.
  intros f t typ D p r get tmv x x' H HL R. apply value_ok_cases in H as [H|(HT & id & ->)].
  - rewrite dec_value_leaf by assumption. destruct (leaf_read_spec E D _ _ typ x H) as [P1 _].
    now rewrite (P1 _ r _ R).
  - rewrite dec_value_struct by assumption. inversion R; subst. cbn [N.eqb Pos.eqb].
    match goal with H : valid_varint ?l (blen ?s) |- _ => rename H into V; rename l into ll; rename s into ss end.
    rewrite <- app_assoc, (ConsumeBytes_valid _ _ _ V).
    rewrite (Rec1 id _ ss x x'); [now rewrite app_length| |assumption].
    rewrite <- app_assoc in HL. pose proof (consumed_shorter _ _ r V). lia.
Qed.

Lemma dec_value2 : forall f t typ D b get tmv x u, value_ok (f_tag f) t = true -> (length b <= L)%nat ->
  wtg (u || noscan t) t x ->
  match dec_value E rec f t typ D b get tmv x with
  | DOk x' (tmv', n) => exists p r, b = p ++ r /\ n = length p /\ reads E D false (f_tag f) t typ p x x' /\ wtg u t x'
  | DErr x' _ => wtg true t x'
  | _ => False
  end.
Proof.
  clear Rec1.
  intros f t typ D b get tmv x u H HL W. apply value_ok_cases in H as [H|(HT & id & ->)].
  - rewrite dec_value_leaf by assumption. destruct (leaf_read_spec E D _ _ typ x H) as [_ P2]. specialize (P2 b). cbv beta in P2.
    destruct (leaf_read (f_tag f) t typ b x) as [[v n]| | |]; auto.
    + destruct P2 as (p & r & -> & -> & R). exists p, r. repeat split; auto. eapply leaf_reads_typed; eassumption.
    + eapply wtg_up; exact W.
  - rewrite dec_value_struct by assumption. cbn [noscan] in W. rewrite orb_false_r in W.
    destruct (N.eqb_spec typ 2) as [->|]; [|eapply wtg_up; exact W].
    destruct (ConsumeBytes_safe b) as [S1 S2].
    destruct (ConsumeBytes b) as [[fb n]| | |] eqn:C; try congruence; [|eapply wtg_up; exact W].
    apply ConsumeBytes_inv in C as (l & r & -> & -> & V).
    pose proof (consumed_shorter _ _ r V) as LS.
    pose proof (Rec2 id (D - 1)%Z fb x u ltac:(lia) W) as R2.
    destruct (rec id (D - 1)%Z fb x) as [x' []|x' e| |]; auto.
    destruct R2 as [R2 W']. exists (l ++ fb), r. rewrite <- app_assoc, app_length. repeat split; auto.
    now constructor.
Qed.

(** Through an optional pointer. *)
Definition strip (t : gotype) : gotype := match t with TPtr t' => t' | _ => t end.

Lemma dec_elem1 : forall f t typ D p r get tmv x x', value_ok (f_tag f) (strip t) = true -> (length (p ++ r) <= L)%nat ->
  reads E D false (f_tag f) t typ p x x' ->
  (let '(t', y, put) := mallocIfPointer E t x in dmap put (dec_value E rec f t' typ D (p ++ r) get tmv y))
   = DOk x' (tmv, length p).
Proof.
  clear Rec2.
  intros f t typ D p r get tmv x x' H HL R. destruct t; try (cbn [mallocIfPointer strip] in *;
    rewrite (dec_value1 _ _ _ _ _ _ _ _ _ _ H HL R); reflexivity).
  cbn [mallocIfPointer strip] in *. inversion R; subst. rewrite fresh_unset.
  match goal with X : reads _ _ _ _ _ _ _ _ _ |- _ => rewrite (dec_value1 _ _ _ _ _ _ _ _ _ _ H HL X) end.
  reflexivity.
Qed.

Lemma dec_elem2 : forall f t typ D b get tmv x u, value_ok (f_tag f) (strip t) = true -> (length b <= L)%nat ->
  wtg (u || noscan t) t x ->
  match (let '(t', y, put) := mallocIfPointer E t x in dmap put (dec_value E rec f t' typ D b get tmv y)) with
  | DOk x' (tmv', n) => exists p r, b = p ++ r /\ n = length p /\ reads E D false (f_tag f) t typ p x x' /\ wtg u t x'
  | DErr x' _ => wtg true t x'
  | _ => False
  end.
Proof.
  clear Rec1.
  intros f t typ D b get tmv x u H HL W. destruct t; try (cbn [mallocIfPointer strip] in *;
    pose proof (dec_value2 _ _ typ D b get tmv x u H HL W) as R;
    match type of R with match ?d with _ => _ end => destruct d as [x' [tmv' n]|x' e| |] end; cbn [dmap]; exact R).
  cbn [mallocIfPointer strip] in *. rewrite fresh_unset.
  pose proof (dec_value2 _ _ typ D b get tmv _ u H HL (unset_typed u t)) as R.
  match type of R with match ?d with _ => _ end => destruct d as [x' [tmv' n]|x' e| |] end; cbn [dmap]; auto.
  destruct R as (p & r & -> & -> & R & W'). exists p, r. repeat split; auto. now constructor.
Qed.

(** ** Maps *)
Lemma DecodeMapValue_leaf : forall f vt D b v0, leaf_ok (f_vtag f) vt = true ->
  match with_tag 2 (fun typ b => leaf_read (f_vtag f) vt typ b v0) b, DecodeMapValue E rec f vt D b v0 with
  | Ok (v, _), DOk v' _ => v' = v
  | Err _, DErr _ _ => True
  | Panic, DPanic | OutOfFuel, DFuel => True
  | _, _ => False
  end.
Proof. clear Rec1 Rec2.
  intros f vt D b v0 H. unfold DecodeMapValue, with_tag.
  destruct (ConsumeKVTag b) as [[n t]|] eqn:K; [|exact I].
  destruct (N.eqb_spec n 2) as [->|Hn].
  - apply kvtag_inv in K as (c & r & -> & _ & _).
    assert (M : mallocIfPointer E vt v0 = (vt, v0, fun x => x)) by (destruct vt; try discriminate H; reflexivity).
    rewrite M. change (c :: r) with ([c] ++ r). change 1%nat with (length [c]). rewrite slice_from_app. cbn [bind dbind].
    unfold leaf_read. destruct (dec_scalar (f_vtag f) vt t r v0) as [[[v m]| | |]|]; cbn [bind dbind]; try reflexivity; auto.
    destruct (t =? WBytes); [|exact I].
    destruct (ConsumeBytes r) as [[fb n]| | |]; cbn [bind dbind]; auto.
    destruct vt as [k| | | | | | | |]; try discriminate H; cbn; auto.
  - destruct n as [|[|[]|]]; try exact I. congruence.
Qed.

(** The content of the temporary matters only for structs, where it is zero. *)
Definition tmp_ok (vt : gotype) (v0 : val) : Prop := match vt with TStruct id => v0 = sd_zero (E id) | _ => True end.

Lemma DecodeMapValue1 : forall f vt D q r v0 v, elem_ok (f_vtag f) vt = true -> tmp_ok vt v0 -> (length (q ++ r) <= L)%nat ->
  tagged 2 (fun t p v => reads E D false (f_vtag f) vt t p (unset E vt) v) q v ->
  DecodeMapValue E rec f vt D (q ++ r) v0 = DOk v tt.
Proof.
  clear Rec2.
  intros f vt D q r v0 v H HT HL TG. apply elem_ok_cases in H as [H|(HB & id & HV)].
  - pose proof (DecodeMapValue_leaf f vt D (q ++ r) v0 H) as X.
    assert (PT : parses (with_tag 2 (fun typ b => leaf_read (f_vtag f) vt typ b v0))
                   (tagged 2 (fun t p v => reads E D false (f_vtag f) vt t p v0 v))).
    { apply parses_tagged; [reflexivity|]. intros typ _. now apply leaf_read_spec. }
    destruct PT as [P1 _]. rewrite (P1 q r v) in X.
    + destruct (DecodeMapValue E rec f vt D (q ++ r) v0) as [v' []| | |]; try easy. now subst.
    + destruct TG as (c & t & p & -> & Hc & Ht & R). exists c, t, p. repeat split; auto. eapply leaf_reads_any; eassumption.
  - destruct TG as (c & t & p & -> & Hc & Ht & R). unfold DecodeMapValue. cbn [app].
    rewrite (kvtag c (p ++ r) 2 t) by lia.
    assert (exists put y, mallocIfPointer E vt v0 = (TStruct id, y, put) /\ y = sd_zero (E id) /\
      exists v', v = put v' /\ reads E D false TagBytes (TStruct id) t p (sd_zero (E id)) v') as (put & y & M & -> & v' & -> & R').
    { destruct HV as [-> | ->].
      - exists (fun x => x), v0. cbn [tmp_ok] in HT. rewrite HB in R. cbn [mallocIfPointer]. repeat split; auto. exists v. auto.
      - exists (fun x => VPtr (Some x)), (sd_zero (E id)). rewrite HB in R. inversion R; subst.
        cbn [mallocIfPointer]. repeat split; auto. eexists. split; [reflexivity|]. assumption. }
    rewrite M. change (c :: p ++ r) with ([c] ++ (p ++ r)). change 1%nat with (length [c]). rewrite slice_from_app. cbn [dbind].
    inversion R'; subst. rewrite HB. cbn [dec_scalar N.eqb Pos.eqb dbind]. 
    match goal with H : valid_varint ?l (blen ?s) |- _ => rename H into V; rename l into ll; rename s into ss end.
    change (dec_scalar TagBytes (TStruct id) 2 ((ll ++ ss) ++ r) (sd_zero (E id))) with (@None (res (val * nat))).
    change (2 =? WBytes) with true. cbv iota. rewrite <- app_assoc, (ConsumeBytes_valid _ _ _ V). cbn [dbind].
    rewrite (Rec1 id _ ss _ v'); [reflexivity| |assumption].
    pose proof (consumed_shorter _ _ r V). cbn [app length] in HL. rewrite <- app_assoc in HL. lia.
Qed.

Lemma DecodeMapValue2 : forall f vt D b v0, elem_ok (f_vtag f) vt = true -> tmp_ok vt v0 -> (length b <= L)%nat ->
  match DecodeMapValue E rec f vt D b v0 with
  | DOk v _ => exists q r, b = q ++ r /\ tagged 2 (fun t p v => reads E D false (f_vtag f) vt t p (unset E vt) v) q v /\
                 wtg false vt v
  | DErr _ _ => True
  | _ => False
  end.
Proof.
  clear Rec1.
  intros f vt D b v0 H HT HL. apply elem_ok_cases in H as [H|(HB & id & HV)].
  - pose proof (DecodeMapValue_leaf f vt D b v0 H) as X.
    assert (PT : parses (with_tag 2 (fun typ b => leaf_read (f_vtag f) vt typ b v0))
                   (tagged 2 (fun t p v => reads E D false (f_vtag f) vt t p v0 v))).
    { apply parses_tagged; [reflexivity|]. intros typ _. now apply leaf_read_spec. }
    destruct PT as [_ P2]. specialize (P2 b).
    destruct (with_tag 2 (fun typ b => leaf_read (f_vtag f) vt typ b v0) b) as [[v n]| | |];
      destruct (DecodeMapValue E rec f vt D b v0) as [v' []| | |]; try easy. subst v'.
    destruct P2 as (q & r & -> & _ & (c & t & p & -> & Hc & Ht & R)). exists (c :: p), r. split; [reflexivity|]. split.
    + exists c, t, p. repeat split; auto. eapply leaf_reads_any; eassumption.
    + eapply leaf_reads_typed; eassumption.
  - unfold DecodeMapValue.
    destruct (ConsumeKVTag b) as [[n t]|] eqn:K; [|exact I].
    destruct (N.eq_dec n 2) as [->|Hn]; [|destruct n as [|[|[]|]]; try exact I; congruence].
    apply kvtag_inv in K as (c & r & -> & Hc & Ht).
    assert (exists put, mallocIfPointer E vt v0 = (TStruct id, sd_zero (E id), put) /\
      forall D t p v', reads E D false (f_vtag f) (TStruct id) t p (sd_zero (E id)) v' -> wtg false (TStruct id) v' ->
         reads E D false (f_vtag f) vt t p (unset E vt) (put v') /\ wtg false vt (put v')) as (put & M & HR).
    { destruct HV as [-> | ->].
      - exists (fun x => x). cbn [tmp_ok] in HT. rewrite HT. cbn [mallocIfPointer]. auto.
      - exists (fun x => VPtr (Some x)). cbn [mallocIfPointer]. split; [reflexivity|]. intros D' t' p v' R W.
        split; [now constructor|]. exact W. }
    rewrite M. change (c :: r) with ([c] ++ r). change 1%nat with (length [c]). rewrite slice_from_app. cbn [dbind].
    rewrite HB. destruct (dec_scalar_bytes (TStruct id) t r (sd_zero (E id))) as [X|[X _]]; rewrite X; [exact I|].
    unfold WBytes. destruct (N.eqb_spec t 2) as [->|]; [|exact I].
    destruct (ConsumeBytes_safe r) as [S1 S2].
    destruct (ConsumeBytes r) as [[fb n]| | |] eqn:C; try congruence; [|exact I]. cbn [dbind].
    apply ConsumeBytes_inv in C as (l & r' & -> & -> & V).
    pose proof (consumed_shorter _ _ r' V) as LS. cbn [app length] in HL.
    pose proof (Rec2 id (D - 1)%Z fb (sd_zero (E id)) false ltac:(lia) (wt_zero_struct E Q WF _ _ _ eq_refl)) as R2.
    destruct (rec id (D - 1)%Z fb (sd_zero (E id))) as [x' []|x' e| |]; cbn [dmap]; auto.
    destruct R2 as [R2 W'].
    destruct (HR D 2 (l ++ fb) x') as [R3 W3]; [now constructor|assumption|].
    exists ([c] ++ (l ++ fb)), r'. rewrite <- !app_assoc. cbn [app]. split; [reflexivity|]. split; [|exact W3].
    exists c, 2, (l ++ fb). rewrite <- HB in *. auto.
Qed.

Lemma tmp_reset_ok : forall vt tmp, tmp_ok vt (snd (tmp_reset E vt tmp)).
Proof. clear Rec1 Rec2. intros [] tmp; exact I || reflexivity. Qed.

Lemma DecodeMapPair1 : forall f kt vt D q1 q2 junk m tmp k v,
  key_ok (f_ktag f) kt = true -> elem_ok (f_vtag f) vt = true -> (length (q1 ++ q2 ++ junk) <= L)%nat ->
  tagged 1 (fun t p k => exists k0, reads E D false (f_ktag f) kt t p k0 k) q1 k ->
  tagged 2 (fun t p v => reads E D false (f_vtag f) vt t p (unset E vt) v) q2 v ->
  DecodeMapPair E rec f kt vt D (q1 ++ q2 ++ junk) (VMap m) tmp = DOk (VMap (Some (put_entry m k v))) (k, v).
Proof.
  clear Rec2.
  intros f kt vt D q1 q2 junk m tmp k v HK HV HL T1 T2. unfold DecodeMapPair.
  set (tmp' := tmp_reset E vt tmp).
  destruct (DecodeMapKey_spec E D f kt (fst tmp') HK) as [P1 _]. rewrite (P1 q1 _ k).
  - cbn [dbind]. rewrite slice_from_app. cbn [dbind].
    rewrite (DecodeMapValue1 _ _ _ q2 junk _ v); auto; [apply tmp_reset_ok|].
    rewrite app_length in HL. lia.
  - destruct T1 as (c & t & p & -> & Hc & Ht & k0 & R). exists c, t, p. repeat split; auto.
    eapply leaf_reads_any; [now apply key_ok_leaf|eassumption].
Qed.

Lemma DecodeMapPair2 : forall f kt vt D b m tmp u,
  key_ok (f_ktag f) kt = true -> elem_ok (f_vtag f) vt = true -> (length b <= L)%nat ->
  wtg u (TMap kt vt) (VMap m) ->
  match DecodeMapPair E rec f kt vt D b (VMap m) tmp with
  | DOk p' _ => exists q1 q2 junk k v, b = q1 ++ q2 ++ junk /\ p' = VMap (Some (put_entry m k v)) /\
       tagged 1 (fun t p k => exists k0, reads E D false (f_ktag f) kt t p k0 k) q1 k /\
       tagged 2 (fun t p v => reads E D false (f_vtag f) vt t p (unset E vt) v) q2 v /\ wtg false vt v
  | DErr p' _ => wtg true (TMap kt vt) p'
  | _ => False
  end.
Proof.
  clear Rec1.
  intros f kt vt D b m tmp u HK HV HL W. unfold DecodeMapPair.
  set (tmp' := tmp_reset E vt tmp).
  assert (W' : wtg true (TMap kt vt) (VMap (Some (match m with Some m => m | None => [] end)))).
  { apply wtg_up in W. destruct m as [m|]; [exact W|]. apply wtg_map. split; constructor. }
  destruct (DecodeMapKey_spec E D f kt (fst tmp') HK) as [_ P2]. specialize (P2 b). cbv beta in P2.
  destruct (DecodeMapKey f kt b (fst tmp')) as [[k n]| | |]; cbn [dbind]; auto.
  destruct P2 as (q1 & r & -> & -> & T1). rewrite slice_from_app. cbn [dbind].
  rewrite app_length in HL.
  pose proof (DecodeMapValue2 f vt D r (snd tmp') HV (tmp_reset_ok vt tmp) ltac:(lia)) as X.
  destruct (DecodeMapValue E rec f vt D r (snd tmp')) as [v []| | |]; auto.
  destruct X as (q2 & junk & -> & T2 & Wv). exists q1, q2, junk, k, v. repeat split; auto.
  destruct T1 as (c & t & p & Hq & Hc & Ht & R). exists c, t, p. repeat split; auto. exists (fst tmp'). exact R.
Qed.

Lemma bytes_eqb_eq : forall a b, bytes_eqb a b = true <-> a = b.
Proof. clear Rec1 Rec2.
  induction a as [|x a IH]; intros [|y b]; split; intro H; try easy.
  - cbn in H. apply andb_prop in H as [H1 H2]. apply N.eqb_eq, b2n_inj in H1. apply IH in H2. now subst.
  - injection H as -> ->. cbn. rewrite N.eqb_refl. now apply IH.
Qed.
Lemma key_eqb_eq : forall a b, (exists n, a = VNum n) \/ (exists s, a = VStr s) -> (key_eqb a b = true <-> a = b).
Proof. clear Rec1 Rec2.
  intros a b [[n ->]|[s ->]]; destruct b; cbn; try (split; intro; easy).
  - rewrite N.eqb_eq. split; congruence.
  - rewrite bytes_eqb_eq. split; congruence.
Qed.

Lemma key_eqb_sym : forall a b, key_eqb a b = key_eqb b a.
Proof. clear Rec1 Rec2.
  intros [] []; cbn; try reflexivity; [apply N.eqb_sym|].
  destruct (bytes_eqb s s0) eqn:A, (bytes_eqb s0 s) eqn:B; try reflexivity; exfalso.
  - apply bytes_eqb_eq in A. subst. assert (bytes_eqb s0 s0 = true) by now apply bytes_eqb_eq. congruence.
  - apply bytes_eqb_eq in B. subst. assert (bytes_eqb s s = true) by now apply bytes_eqb_eq. congruence.
Qed.

Lemma map_set_keys : forall m k v, (exists n, k = VNum n) \/ (exists s, k = VStr s) ->
  In k (map fst m) /\ map fst (map_set m k v) = map fst m \/
  ~ In k (map fst m) /\ map fst (map_set m k v) = map fst m ++ [k].
Proof. clear Rec1 Rec2.
  intros m k v K. induction m as [|[k' v'] m IH]; [right; auto|]. cbn [map_set map fst].
  destruct (key_eqb k' k) eqn:Q1.
  - left. rewrite key_eqb_sym in Q1. apply key_eqb_eq in Q1; [|assumption]. subst. split; [left|]; reflexivity.
  - assert (k' <> k). { intro. subst. rewrite (proj2 (key_eqb_eq k k K) eq_refl) in Q1. discriminate. }
    cbn [map fst]. destruct IH as [[I ->]|[I ->]]; [left|right]; (split; [|reflexivity]); cbn; intuition.
Qed.
Lemma map_set_forall : forall (P : val * val -> Prop) m k v, (forall k, P (k, v)) \/ P (k, v) -> 
  (forall k' v' , key_eqb k' k = true -> P (k', v') -> P (k', v)) -> Forall P m -> P (k, v) -> Forall P (map_set m k v).
Proof. clear Rec1 Rec2.
  intros P m k v _ HK F HP. induction F as [|[k' v'] m H F IH]; [cbn; auto|].
  cbn [map_set]. destruct (key_eqb k' k) eqn:Q1; constructor; eauto.
Qed.

Lemma put_entry_typed : forall u kt vt m k v, wtg u (TMap kt vt) (VMap m) -> wtg u kt k -> wtg u vt v ->
  (exists n, k = VNum n) \/ (exists s, k = VStr s) ->
  wtg u (TMap kt vt) (VMap (Some (put_entry m k v))).
Proof. clear Rec1 Rec2.
  intros u kt vt m k v W Wk Wv K. unfold put_entry. set (m' := match m with Some m => m | None => [] end).
  assert (W' : wtg u (TMap kt vt) (VMap (Some m'))).
  { unfold m'. destruct m as [m|]; [exact W|]. apply wtg_map. split; constructor. }
  apply wtg_map in W' as [W1 W2]. apply wtg_map. split.
  - apply map_set_forall; auto. intros k' v' _ [A _]. auto.
  - destruct (map_set_keys m' k v K) as [[_ ->]|[NI ->]]; [assumption|].
    apply NoDup_rev in W2. rewrite <- (rev_involutive (map fst m' ++ [k])). apply NoDup_rev.
    rewrite rev_app_distr. cbn. constructor; [|assumption]. now rewrite <- in_rev.
Qed.

Lemma key_reads_form : forall D raw tag kt typ p k0 k, key_ok tag kt = true -> reads E D raw tag kt typ p k0 k ->
  (exists n, k = VNum n) \/ (exists s, k = VStr s).
Proof. clear Rec1 Rec2.
  intros D raw tag kt typ p k0 k H R. destruct kt; try discriminate H.
  - apply reads_scalar_inv in R as (n & -> & _). eauto.
  - apply reads_string_inv in R as (_ & l & s & _ & _ & ->). eauto.
Qed.

(** The two paths, through one statement. *)
Lemma dec_map1 : forall f kt vt D typ p r get tmv x x', supported f = true -> f_T f = TMap kt vt ->
  (length (p ++ r) <= L)%nat -> merges E D f typ p x x' ->
  exists tmv', dec_value E rec f (TMap kt vt) typ D (p ++ r) get tmv x = DOk x' (tmv', length p).
Proof.
  clear Rec2.
  intros f kt vt D typ p r get tmv x x' SU FT HL M. unfold supported in SU. rewrite FT in SU.
  apply andb_prop in SU as [SU HV]. apply andb_prop in SU as [SU HK]. apply andb_prop in SU as [SU HB].
  apply andb_prop in SU as [SU HO]. apply andb_prop in SU as [HR HP].
  assert (HT : f_tag f = TagBytes) by (destruct (f_tag f); easy).
  inversion M as [? ? w ? ? ? ? O|? ? ? ? ? ? O NR|? ? k l ps ns ? O T P|? ? t ? ? e sp y ry y' O T|
    ? ? kt' vt' l c1 t1 p1 c2 t2 p2 junk m k0 k v O T s V C1 T1 C2 T2 Rk Rv]; subst.
  - rewrite O in HO. discriminate.
  - rewrite HR in NR. discriminate.
  - rewrite T in FT. discriminate.
  - rewrite T in FT. discriminate.
  - rewrite T in FT. injection FT as -> ->.
    unfold dec_value. rewrite HT. change (dec_scalar TagBytes (TMap kt vt) 2 ((l ++ s) ++ r) (VMap m)) with (@None (res (val * nat))).
    cbv iota. change (2 =? WBytes) with true. cbv iota. rewrite <- app_assoc, (ConsumeBytes_valid _ _ _ V). cbn [dbind].
    rewrite T. pose proof (map_path f kt vt T HK HV) as MP.
    destruct (getMapDecodeFunc f) as [row|].
    + destruct MP as (kk & vk & -> & -> & RB & ->). rewrite RB in *.
      apply reads_scalar_inv in Rk as (kn & -> & Rk). apply reads_scalar_inv in Rv as (vn & -> & Rv).
      cbn [key_ok] in HK. apply andb_prop in HK as [HK _].
      destruct (DecodeMapKV_spec _ kk _ vk HK HV) as [D1 _].
      assert (Hs : s = ([c1] ++ p1) ++ ([c2] ++ p2) ++ junk) by (unfold s; now rewrite <- !app_assoc).
      clearbody s. specialize (D1 ([c1] ++ p1) ([c2] ++ p2) junk kn vn). rewrite <- Hs in D1. rewrite D1.
      * cbn [dbind]. exists tmv. unfold put_entry. now rewrite app_length.
      * exists c1, t1, p1. auto.
      * exists c2, t2, p2. auto.
    + assert (Rk' : reads E (D-1) false (f_ktag f) kt t1 p1 k0 k /\ reads E (D - 1) false (f_vtag f) vt t2 p2 (unset E vt) v).
      { destruct MP as [RB|[-> ->]].
        - rewrite RB in *. split; [|assumption]. eapply leaf_reads_any; [now apply key_ok_leaf|eassumption].
        - apply reads_scalar_inv in Rk as (kn & -> & Rk). apply reads_scalar_inv in Rv as (vn & -> & Rv).
          split; apply reads_scalar_inv; eexists; (split; [reflexivity|]); eapply reads_scalar_raw; try eassumption; discriminate. }
      destruct Rk' as [Rk' Rv'].
      assert (Hs : s = ([c1] ++ p1) ++ ([c2] ++ p2) ++ junk) by (unfold s; now rewrite <- !app_assoc).
      clearbody s.
      pose proof (DecodeMapPair1 f kt vt (D - 1) ([c1] ++ p1) ([c2] ++ p2) junk m (match tmv with Some x => x | None => get end) k v HK HV) as DP.
      rewrite <- Hs in DP. rewrite DP; clear DP.
      * exists (Some (k, v)). now rewrite app_length.
      * pose proof (consumed_shorter _ _ r V). rewrite <- app_assoc in HL. lia.
      * exists c1, t1, p1. eauto 8.
      * exists c2, t2, p2. auto.
Qed.

Lemma dec_map2 : forall f kt vt D typ b get tmv x u, supported f = true -> f_T f = TMap kt vt ->
  (length b <= L)%nat -> wtg u (TMap kt vt) x ->
  match dec_value E rec f (TMap kt vt) typ D b get tmv x with
  | DOk x' (tmv', n) => exists p r, b = p ++ r /\ n = length p /\ merges E D f typ p x x' /\ wtg u (TMap kt vt) x'
  | DErr x' _ => wtg true (TMap kt vt) x'
  | _ => False
  end.
Proof.
  clear Rec1.
  intros f kt vt D typ b get tmv x u SU FT HL W. unfold supported in SU. rewrite FT in SU.
  apply andb_prop in SU as [SU HV]. apply andb_prop in SU as [SU HK]. apply andb_prop in SU as [SU HB].
  apply andb_prop in SU as [SU HO]. apply andb_prop in SU as [HR HP].
  assert (HT : f_tag f = TagBytes) by (destruct (f_tag f); easy).
  assert (O : f_oneof f = None) by (destruct (f_oneof f); easy).
  unfold dec_value. rewrite HT. destruct (dec_scalar_bytes (TMap kt vt) typ b x) as [X|[X _]]; rewrite X; [eapply wtg_up, W|].
  unfold WBytes. destruct (N.eqb_spec typ 2) as [->|]; [|eapply wtg_up, W].
  destruct (ConsumeBytes_safe b) as [S1 S2].
  destruct (ConsumeBytes b) as [[fb n]| | |] eqn:C; try congruence; [|eapply wtg_up, W]. cbn [dbind].
  apply ConsumeBytes_inv in C as (l & r & -> & -> & V). rewrite FT.
  pose proof (map_path f kt vt FT HK HV) as MP. pose proof (consumed_shorter _ _ r V) as LS.
  apply wt_map_inv in W as W0. destruct W0 as (m & -> & _).
  destruct (getMapDecodeFunc f) as [row|].
  - destruct MP as (kk & vk & -> & -> & RB & ->).
    pose proof HK as HK'. cbn [key_ok] in HK'. apply andb_prop in HK' as [HK' _].
    destruct (DecodeMapKV_spec _ kk _ vk HK' HV) as [_ D2]. specialize (D2 fb).
    match type of D2 with match ?d with _ => _ end => destruct d as [[k v]|e| |] end; cbn [dbind]; auto;
      [|eapply wtg_up, W].
    destruct D2 as (q1 & q2 & junk & kn & vn & Hfb & -> & -> & T1 & T2).
    destruct T1 as (c1 & t1 & p1 & -> & C1 & L1 & R1). destruct T2 as (c2 & t2 & p2 & -> & C2 & L2 & R2).
    exists (l ++ fb), r. rewrite <- app_assoc, app_length. split; [reflexivity|]. split; [reflexivity|]. split.
    + assert (Hs : fb = [c1] ++ p1 ++ [c2] ++ p2 ++ junk) by (rewrite Hfb; cbn [app]; now rewrite <- ?app_assoc).
      rewrite Hs in *. eapply m_entry with (k0 := VUninit); eauto; rewrite RB; constructor; assumption.
    + apply (put_entry_typed u (TScalar kk) (TScalar vk) m (VNum kn) (VNum vn)); auto; [| |eauto].
      * cbn. eapply reads_scalar_ok; eassumption.
      * cbn. eapply reads_scalar_ok; eassumption.
  - pose proof (DecodeMapPair2 f kt vt (D - 1) fb m (match tmv with Some x => x | None => get end) u HK HV ltac:(lia) W) as X2.
    match type of X2 with match ?d with _ => _ end => destruct d as [p' tmp|p' e| |] end; auto.
    destruct X2 as (q1 & q2 & junk & k & v & Hfb & -> & T1 & T2 & Wv).
    destruct T1 as (c1 & t1 & p1 & -> & C1 & L1 & k0 & R1). destruct T2 as (c2 & t2 & p2 & -> & C2 & L2 & R2).
    exists (l ++ fb), r. rewrite <- app_assoc, app_length. split; [reflexivity|]. split; [reflexivity|]. split.
    + assert (Hs : fb = [c1] ++ p1 ++ [c2] ++ p2 ++ junk) by (rewrite Hfb; cbn [app]; now rewrite <- ?app_assoc).
      rewrite Hs in *. destruct MP as [RB|[-> ->]].
      * eapply m_entry with (k0 := VUninit); eauto; rewrite RB; [|assumption]. eapply leaf_reads_any; [now apply key_ok_leaf|eassumption].
      * apply reads_scalar_inv in R1 as (kn & -> & R1). apply reads_scalar_inv in R2 as (vn & -> & R2).
        eapply m_entry with (k0 := VUninit); eauto; apply reads_scalar_inv; eexists; (split; [reflexivity|]);
          eapply reads_scalar_raw; try eassumption; discriminate.
    + apply put_entry_typed; auto.
      * eapply leaf_reads_typed; [apply key_ok_leaf; exact HK|eassumption].
      * eapply wtg_weaken; [| |exact Wv]; auto; discriminate.
      * eapply key_reads_form; eassumption.
Qed.

(** ** Fields *)
Lemma grow_next : forall t e sp, exists x r, grow E t e sp = x :: r /\ next_elem E t e sp = (x, r).
Proof. clear Rec1 Rec2.
  intros t e sp. unfold grow, next_elem. destruct sp as [|x sp].
  - destruct e as [|y e].
    + cbn. eauto.
    + cbn [length Nat.add]. rewrite Nat.add_0_r. cbn [Nat.eqb]. rewrite Nat.eqb_refl.
      replace (2 * S (length e) - S (length e))%nat with (S (length e)) by lia. cbn [repeat].
      rewrite Nat.sub_succ, Nat.sub_0_r. eauto.
  - replace (length e + length (x :: sp))%nat with (S (length e + length sp)) by (cbn [length]; lia). cbn [Nat.eqb].
    destruct (Nat.eqb_spec (length e) (S (length e + length sp))); [lia|]. eauto.
Qed.

Lemma next_elem_typed : forall u t e sp x r, Forall (wtg (u || noscan t) t) sp -> next_elem E t e sp = (x, r) ->
  wtg (u || noscan t) t x /\ Forall (wtg (u || noscan t) t) r.
Proof. clear Rec1 Rec2.
  intros u t e sp x r F N. unfold next_elem in N. destruct sp as [|y sp].
  - injection N as <- <-. split; [apply unset_typed|]. apply Forall_forall. intros y I. apply repeat_spec in I. subst. apply unset_typed.
  - injection N as -> ->. now inversion F.
Qed.

(** The type of the struct field that holds [f]. *)
Definition slot_type (f : fdesc) (t : gotype) : Prop :=
  match f_oneof f with
  | None => t = f_T f
  | Some w => exists alts, t = TIface alts /\ lookup_alt w alts = Some (f_T f)
  end.

(** How a field is stored. *)
Lemma supported_cases : forall f, supported f = true ->
  (f_rep f = false /\ f_packed f = false /\ value_ok (f_tag f) (strip (f_T f)) = true) \/
  (f_oneof f = None /\ f_rep f = true /\ exists t, f_T f = TSlice t /\ value_ok (f_tag f) (strip t) = true /\
     (f_packed f = true -> exists k, t = TScalar k /\ scalar_ok (f_tag f) k = true)) \/
  (f_oneof f = None /\ exists kt vt, f_T f = TMap kt vt).
Proof. clear Rec1 Rec2.
  intros f H. unfold supported in H. destruct (f_T f) as [k| | |id|t|t|kt vt|alts|] eqn:T.
  1-5, 8-9: left; apply andb_prop in H as [H HV]; apply andb_prop in H as [H1 H2]; cbn [strip];
    destruct (f_rep f), (f_packed f); try discriminate; auto.
  - right. left. apply andb_prop in H as [H HP]. apply andb_prop in H as [H HV]. apply andb_prop in H as [H1 H2].
    split; [destruct (f_oneof f); easy|]. split; [assumption|]. exists t. split; [reflexivity|]. split.
    + unfold elem_ok in HV. destruct t as [| | | |[]| | | |]; try discriminate HV; exact HV.
    + intro P. rewrite P in HP. destruct t; try discriminate HP. eauto.
  - right. right. apply andb_prop in H as [H _]. apply andb_prop in H as [H _]. apply andb_prop in H as [H _].
    apply andb_prop in H as [_ H]. split; [destruct (f_oneof f); easy|]. eauto.
Qed.

Lemma dec_field1 : forall f typ D p r get tmv slot slot', supported f = true -> (length (p ++ r) <= L)%nat ->
  merges E D f typ p slot slot' ->
  exists tmv', dec_field E rec f typ D (p ++ r) get tmv slot = DOk slot' (tmv', length p).
Proof.
  clear Rec2.
  intros f typ D p r get tmv slot slot' SU HL M. unfold dec_field.
  destruct (supported_cases f SU) as [(NR & NP & VO)|[(O & RP & t & T & VO & PK)|(O & kt & vt & T)]].
  - (* singular *)
    assert (exists p0 put0 x', (match f_oneof f with Some w => (fresh E (f_T f), fun x => VIface (Some (w, Some x)))
       | None => (slot, fun x => x) end) = (p0, put0) /\ slot' = put0 x' /\
       reads E D false (f_tag f) (f_T f) typ p p0 x') as (p0 & put0 & x' & -> & -> & R).
    { inversion M as [? ? w ? ? ? ? O|? ? ? ? ? ? O _|? ? k l ps ns ? O T P|? ? t ? ? e sp y ry y' O T|
        ? ? kt' vt' l c1 t1 p1 c2 t2 p2 junk m k0 k v O T s V C1 T1 C2 T2 Rk Rv]; subst.
      - rewrite O. do 3 eexists. split; [reflexivity|]. split; [reflexivity|]. assumption.
      - rewrite O. do 3 eexists. split; [reflexivity|]. split; [reflexivity|]. assumption.
      - unfold supported in SU. rewrite T, NR in SU. discriminate.
      - unfold supported in SU. rewrite T, NR in SU. discriminate.
      - unfold supported in SU. rewrite T, NR in SU. discriminate. }
    exists tmv. pose proof (dec_elem1 f (f_T f) typ D p r get tmv p0 x' VO HL R) as X.
    destruct (mallocIfPointer E (f_T f) p0) as [[t' y] put1]. rewrite NR.
    destruct (dec_value E rec f t' typ D (p ++ r) get tmv y) as [v a| | |]; try discriminate X.
    cbn [dmap] in *. congruence.
  - (* list *)
    rewrite O, T. cbn [mallocIfPointer]. rewrite RP.
    inversion M as [? ? w ? ? ? ? O'|? ? ? ? ? ? O' NR|? ? k l ps ns ? O' T' P V F|? ? t' ? ? e sp y ry y' O' T' NP NX R|
        ? ? kt' vt' l c1 t1 p1 c2 t2 p2 junk m k0 k v O' T' s V C1 T1 C2 T2 Rk Rv]; subst; try congruence.
    + rewrite T in T'. injection T' as ->. rewrite P. cbn [N.eqb Pos.eqb andb]. change (2 =? WBytes) with true. cbn [andb].
      destruct (PK P) as (k' & X & SO). injection X as <-.
      unfold packedCoder. rewrite T. cbn [elemT dereferenceElemKind kindOf].
      destruct (packed_decoder (f_tag f) k SO) as (g & -> & [G1 _]).
      rewrite <- app_assoc, (ConsumeBytes_valid _ _ _ V). cbn [dbind]. rewrite (G1 _ _ F). cbn [dbind dmap].
      exists tmv. now rewrite app_length.
    + rewrite T in T'. injection T' as <-.
      replace ((typ =? WBytes) && f_packed f) with false.
      2: { unfold WBytes. destruct NP as [NP| ->]; [|now rewrite andb_false_r]. now destruct (N.eqb_spec typ 2). }
      destruct (grow_next t e sp) as (x0 & r0 & -> & NX'). rewrite NX in NX'. injection NX' as <- <-.
      exists tmv. pose proof (dec_elem1 f t typ D p r get tmv y y' VO HL R) as X.
      destruct (mallocIfPointer E t y) as [[t' z] put1].
      destruct (dec_value E rec f t' typ D (p ++ r) get tmv z) as [v a| | |]; try discriminate X.
      cbn [dmap] in *. congruence.
  - (* map *)
    rewrite O, T. cbn [mallocIfPointer].
    destruct (dec_map1 f kt vt D typ p r get tmv slot slot' SU T HL M) as [tmv' X]. exists tmv'. rewrite X.
    now destruct (f_rep f).
Qed.

Lemma dec_field2 : forall f typ D b get tmv slot t u, supported f = true -> slot_type f t -> (length b <= L)%nat ->
  wtg u t slot ->
  match dec_field E rec f typ D b get tmv slot with
  | DOk slot' (tmv', n) => exists p r, b = p ++ r /\ n = length p /\ merges E D f typ p slot slot' /\ wtg u t slot'
  | DErr slot' _ => wtg true t slot'
  | _ => False
  end.
Proof.
  clear Rec1.
  intros f typ D b get tmv slot t u SU ST HL W. unfold dec_field, slot_type in *.
  destruct (supported_cases f SU) as [(NR & NP & VO)|[(O & RP & te & T & VO & PK)|(O & kt & vt & T)]].
  - assert (exists p0 put0, (match f_oneof f with Some w => (fresh E (f_T f), fun x => VIface (Some (w, Some x)))
       | None => (slot, fun x => x) end) = (p0, put0) /\ wtg (u || noscan (f_T f)) (f_T f) p0 /\
       (forall u x, wtg u (f_T f) x -> wtg u t (put0 x)) /\
       (forall p x', reads E D false (f_tag f) (f_T f) typ p p0 x' -> merges E D f typ p slot (put0 x')))
       as (p0 & put0 & -> & W0 & TY & MG).
    { destruct (f_oneof f) as [w|] eqn:O.
      - destruct ST as (alts & -> & LA). do 2 eexists. split; [reflexivity|]. split; [apply unset_typed|]. split.
        + intros u' x Wx. cbn. now rewrite LA.
        + intros. now apply m_oneof.
      - subst t. do 2 eexists. split; [reflexivity|]. split; [now apply wtg_or|]. split; [auto|].
        intros. now apply m_single. }
    pose proof (dec_elem2 f (f_T f) typ D b get tmv p0 u VO HL W0) as X.
    destruct (mallocIfPointer E (f_T f) p0) as [[t' y] put1]. rewrite NR.
    destruct (dec_value E rec f t' typ D b get tmv y) as [v [tm n]|v e| |]; cbn [dmap] in *; auto.
    destruct X as (p & r & -> & -> & R & W'). exists p, r. repeat split; auto.
  - rewrite O in *. subst t. rewrite T in *. cbn [mallocIfPointer]. rewrite RP.
    apply wt_slice_inv in W as W0. destruct W0 as (e & sp & -> & We & Wsp).
    destruct ((typ =? WBytes) && f_packed f) eqn:PP.
    + apply andb_prop in PP as [PT P]. apply N.eqb_eq in PT. subst typ.
      destruct (PK P) as (k & -> & SO). unfold packedCoder. rewrite T. cbn [elemT dereferenceElemKind kindOf].
      destruct (packed_decoder (f_tag f) k SO) as (g & -> & [_ G2]).
      destruct (ConsumeBytes_safe b) as [S1 S2].
      destruct (ConsumeBytes b) as [[fb n]| | |] eqn:C; try congruence; [|eapply wtg_up, W]. cbn [dbind].
      apply ConsumeBytes_inv in C as (l & r & -> & -> & V). specialize (G2 fb).
      destruct (g fb) as [ns| | |]; cbn [dbind dmap]; auto; [|eapply wtg_up, W].
      destruct G2 as (ps & -> & F). exists (l ++ concat ps), r. rewrite <- app_assoc, app_length. split; [reflexivity|]. split; [reflexivity|]. split.
      * eapply m_packed; eauto.
      * apply wtg_slice. split; [|constructor]. clear -F SO.
        induction F; cbn [map]; constructor; auto. cbn. eapply reads_scalar_ok; eassumption.
    + destruct (grow_next te e sp) as (x0 & r0 & -> & NX).
      destruct (next_elem_typed u te e sp x0 r0 Wsp NX) as [Wx Wr].
      pose proof (dec_elem2 f te typ D b get tmv x0 u VO HL Wx) as X.
      destruct (mallocIfPointer E te x0) as [[t' z] put1].
      destruct (dec_value E rec f t' typ D b get tmv z) as [v [tm n]|v er| |]; cbn [dmap] in *; auto.
      * destruct X as (p & r & -> & -> & R & W'). exists p, r. split; [reflexivity|]. split; [reflexivity|]. split.
        -- eapply m_elem; eauto. unfold WBytes in PP. destruct (N.eqb_spec typ 2); auto.
        -- apply wtg_slice. split; [|assumption]. apply Forall_app. split; [assumption|]. now constructor.
      * apply wtg_slice. split; [|eapply Forall_impl; [|exact Wr]; apply wtg_up].
        apply Forall_app. split; [eapply Forall_impl; [|exact We]; apply wtg_up|]. constructor; auto.
  - rewrite O in *. subst t. rewrite T in *. cbn [mallocIfPointer].
    pose proof (dec_map2 f kt vt D typ b get tmv slot u SU T HL W) as X.
    destruct (f_rep f); cbn iota;
    destruct (dec_value E rec f (TMap kt vt) typ D b get tmv slot) as [v [tm n]|v er| |]; cbn [dmap] in *; auto.
Qed.
End Rec.

(** ** The record loop *)
Lemma wf_slot_type : forall id f, In f (sd_fields (E id)) ->
  exists t, nth_error (sd_slots (E id)) (f_slot f) = Some t /\ slot_type f t.
Proof.
  intros id f HI. destruct (wf_fields _ _ (WF id) f HI) as (_ & _ & H). unfold slot_type.
  destruct (f_oneof f) as [w|]; [|eauto]. destruct H as (alts & H1 & H2). eauto 6.
Qed.
Lemma wf_supported : forall id f, In f (sd_fields (E id)) -> supported f = true.
Proof. intros id f HI. now destruct (wf_fields _ _ (WF id) f HI) as (_ & H & _). Qed.
Lemma wf_num : forall id f, In f (sd_fields (E id)) -> 1 <= field_num f < 2^31 /\ f_id f = Z.of_N (field_num f).
Proof. intros id f HI. destruct (wf_fields _ _ (WF id) f HI) as (H & _). unfold field_num. lia. Qed.

Lemma wf_GetField : forall id num, GetField (E id) (Z.of_N num) = Some (declared (sd_fields (E id)) (Z.of_N num)).
Proof.
  intros id num. apply GetField_sorted; [apply (wf_sorted _ _ (WF id))| |lia].
  apply Forall_forall. intros f HI. destruct (wf_fields _ _ (WF id) f HI). lia.
Qed.
Lemma declared_some : forall id num f, declared (sd_fields (E id)) (Z.of_N num) = Some f <->
  In f (sd_fields (E id)) /\ field_num f = num.
Proof.
  intros id num f. rewrite declared_iff by (apply sorted_nodup, (wf_sorted _ _ (WF id))).
  split; intros [HI H]; (split; [assumption|]); pose proof (wf_num id f HI); lia.
Qed.
Lemma declared_none : forall id num, declared (sd_fields (E id)) (Z.of_N num) = None <->
  forall f, In f (sd_fields (E id)) -> field_num f <> num.
Proof.
  intros id num. split.
  - intros H f HI X. assert (Y : declared (sd_fields (E id)) (Z.of_N num) = Some f) by now apply declared_some. congruence.
  - intro H. destruct (declared (sd_fields (E id)) (Z.of_N num)) as [f|] eqn:D; [|reflexivity].
    apply declared_some in D as [HI X]. now apply H in HI.
Qed.

(** Same number, same field. *)
Lemma wf_same_num : forall id f g, In f (sd_fields (E id)) -> In g (sd_fields (E id)) -> field_num f = field_num g -> f = g.
Proof.
  intros id f g Hf Hg H.
  assert (A : declared (sd_fields (E id)) (Z.of_N (field_num f)) = Some f) by now apply declared_some.
  assert (B : declared (sd_fields (E id)) (Z.of_N (field_num f)) = Some g) by (now apply declared_some).
  congruence.
Qed.

Definition cached_ok (id : nat) (c : option fdesc) : Prop := match c with Some f => In f (sd_fields (E id)) | None => True end.

(** The field found through the cache or the table. *)
Lemma lookup_field : forall id c num, cached_ok id c ->
  (if match match c with Some f0 => if (f_id f0 =? Z.of_N num)%Z then Some f0 else None | None => None end with
      | Some _ => true | None => false end
   then Some match c with Some f0 => if (f_id f0 =? Z.of_N num)%Z then Some f0 else None | None => None end
   else GetField (E id) (Z.of_N num)) = Some (declared (sd_fields (E id)) (Z.of_N num)).
Proof.
  intros id [f0|] num C; [|apply wf_GetField]. cbn in C.
  destruct (Z.eqb_spec (f_id f0) (Z.of_N num)) as [X|X]; [|apply wf_GetField].
  f_equal. symmetry. apply declared_some. split; [assumption|]. pose proof (wf_num id f0 C). lia.
Qed.

Hypothesis Q_nil : forall id, Q id [].
Hypothesis Q_app : forall id u num typ raw d, Q id u -> is_record num typ raw d -> N.of_nat d <= 10001 ->
  (forall f, In f (sd_fields (E id)) -> field_num f <> num) -> Q id (u ++ raw).

Section Loop.
Variable rec : bytes -> nat -> Z -> bytes -> val -> dres unit.
Variable L : nat.
Hypothesis Rec1 : forall rest id D b x x', (length b < L)%nat -> decodes E D id b x x' -> rec rest id D b x = DOk x' tt.
Hypothesis Rec2 : forall rest id D b x u, (length b < L)%nat -> wtg u (TStruct id) x ->
  match rec rest id D b x with
  | DOk x' _ => decodes E D id b x x' /\ wtg u (TStruct id) x'
  | DErr x' _ => wtg true (TStruct id) x'
  | _ => False
  end.

Lemma loop1 : forall fuel id D get c tmv slots unk b v', (length b <= fuel)%nat -> (length b <= L)%nat -> cached_ok id c ->
  records E D id b (VStruct slots unk) v' ->
  decode_loop E rec fuel (E id) D get c tmv slots unk b = DOk v' tt.
Proof.
  clear Rec2 Q_nil Q_app.
  induction fuel as [|fuel IH]; intros id D get c tmv slots unk b v' HF HL HC R.
  { destruct b; [|cbn in HF; lia]. inversion R as [|? ? num typ raw d b0 ? ? ? RR DD U RS X|? ? f t typ p b0 ? ? slot slot' ? IF VT TY NS MG RS X]; subst.
    - reflexivity.
    - destruct RR as (t & v & p & -> & V & _). destruct t; [apply valid_varint_length in V; cbn in V; lia|discriminate].
    - destruct t; [apply valid_varint_length in VT; cbn in VT; lia|discriminate]. }
  inversion R as [|? ? num typ raw d b0 ? ? ? RR DD U RS X|? ? f t typ p b0 ? ? slot slot' ? IF VT TY NS MG RS X]; subst.
  - reflexivity.
  - destruct RR as (t & v & p & -> & V & -> & TY & NB & PL).
    pose proof (valid_varint_length _ _ V) as LV.
    rewrite <- app_assoc in *. rewrite !app_length in HF, HL.
    destruct (t ++ p ++ b0) as [|c0 r0] eqn:EB; [destruct t; [cbn in LV; lia|discriminate]|].
    cbn [decode_loop]. rewrite <- EB. rewrite (ConsumeTag_valid t _ num typ (p ++ b0) V eq_refl TY NB). cbn [dbind].
    rewrite slice_from_app. cbn [dbind]. cbv zeta. rewrite lookup_field by assumption.
    rewrite (proj2 (declared_none id num) U).
    assert (CF : ConsumeFieldValue num typ (p ++ b0) = Ok (length p)) by (apply ConsumeFieldValue_iff; eauto 8).
    rewrite CF. cbn [dbind]. rewrite slice_from_app. cbn [dbind].
    rewrite app_assoc, <- app_length, slice_to_ok by (rewrite (app_length (t ++ p)); lia). rewrite firstn_app_len. cbn [dbind].
    apply IH; [lia|lia|exact I|]. unfold appendToUnknownFields. exact RS.
  - pose proof (valid_varint_length _ _ VT) as LV. rewrite !app_length in HF, HL.
    destruct (wf_num id f IF) as [NB FI].
    destruct (t ++ p ++ b0) as [|c0 r0] eqn:EB; [destruct t; [cbn in LV; lia|discriminate]|].
    cbn [decode_loop]. rewrite <- EB. rewrite (ConsumeTag_valid t _ (field_num f) typ (p ++ b0) VT eq_refl TY NB). cbn [dbind].
    rewrite slice_from_app. cbn [dbind]. cbv zeta. rewrite lookup_field by assumption.
    rewrite (proj2 (declared_some id (field_num f) f) (conj IF eq_refl)). rewrite NS.
    match goal with |- context [dec_field E (rec ?rest) f typ D (p ++ b0) ?g ?tm slot] =>
      destruct (dec_field1 (rec rest) L (Rec1 rest) f typ D p b0 g tm slot slot' (wf_supported id f IF)) as [tmv' DF];
        [rewrite app_length; lia|exact MG|] end.
    rewrite DF. cbv zeta. rewrite slice_from_app. cbn [dbind].
    apply IH; [lia|lia|exact IF|exact RS].
Qed.

Lemma loop2 : forall fuel id D get c tmv slots unk b u, (length b <= fuel)%nat -> (length b <= L)%nat -> cached_ok id c ->
  wtg u (TStruct id) (VStruct slots unk) ->
  match decode_loop E rec fuel (E id) D get c tmv slots unk b with
  | DOk v' _ => records E D id b (VStruct slots unk) v' /\ wtg u (TStruct id) v'
  | DErr v' _ => wtg true (TStruct id) v'
  | _ => False
  end.
Proof.
  clear Rec1.
  induction fuel as [|fuel IH]; intros id D get c tmv slots unk b u HF HL HC W;
    (destruct b as [|c0 r0]; [cbn [decode_loop]; split; [constructor|exact W]|]); [cbn in HF; lia|].
  cbn [decode_loop]. remember (c0 :: r0) as b eqn:EB. clear c0 r0 EB.
  destruct (ConsumeTag_safe b) as [S1 S2].
  destruct (ConsumeTag b) as [[[num typ] n]| | |] eqn:CT; cbn [dbind]; try congruence; [|eapply wtg_up, W].
  apply ConsumeTag_inv in CT as (t & r & -> & <- & LT & VT & TY & NB). rewrite slice_from_app. cbn [dbind]. cbv zeta.
  rewrite app_length in HF, HL. rewrite lookup_field by assumption.
  destruct (declared (sd_fields (E id)) (Z.of_N num)) as [f|] eqn:DC.
  - apply declared_some in DC as [IF <-].
    destruct (wf_slot_type id f IF) as (ty & TS & ST).
    apply wtg_struct in W as W0. destruct W0 as [WS WU].
    destruct (Forall2_nth_error _ _ _ _ _ WS TS) as (slot & NS & Wslot). rewrite NS.
    match goal with |- context [dec_field E (rec ?rest) f typ D r ?g ?tm slot] =>
      assert (X := dec_field2 (rec rest) L (Rec2 rest) f typ D r g tm slot ty u (wf_supported id f IF) ST ltac:(lia) Wslot) ;
      destruct (dec_field E (rec rest) f typ D r g tm slot) as [slot' [tmv' m]|slot' e| |]; auto
    end.
    + destruct X as (p & r' & -> & -> & MG & W'). cbv zeta. rewrite slice_from_app. cbn [dbind].
      rewrite app_length in HF, HL.
      match goal with |- context [decode_loop E rec fuel (E id) D get (Some f) ?tm ?sl unk r'] =>
        specialize (IH id D get (Some f) tm sl unk r' u ltac:(lia) ltac:(lia) IF) end.
      assert (Wn : wtg u (TStruct id) (VStruct (upd_nth (f_slot f) slot' slots) unk)).
      { apply wtg_struct. split; [|exact WU]. eapply Forall2_upd; eassumption. }
      specialize (IH Wn).
      match type of IH with match ?d with _ => _ end => destruct d as [v' []|v' e| |] end; auto.
      destruct IH as [RS Wv]. split; [|exact Wv]. eapply rs_known; eauto.
    + apply wtg_struct. split; [|exact WU]. eapply Forall2_upd; [|exact TS|exact X].
      clear -WS. induction WS; constructor; [eapply wtg_up; eassumption|assumption].
  - pose proof (proj1 (declared_none id num) DC) as U.
    destruct (ConsumeFieldValue_safe num typ r) as [F1 F2].
    destruct (ConsumeFieldValue num typ r) as [m| | |] eqn:CF; cbn [dbind]; try congruence; [|eapply wtg_up, W].
    apply ConsumeFieldValue_iff in CF as (p & r' & d & -> & <- & PL & LD). rewrite slice_from_app. cbn [dbind].
    rewrite app_assoc, <- app_length, slice_to_ok by (rewrite (app_length (t ++ p)); lia). rewrite firstn_app_len. cbn [dbind].
    rewrite app_length in HF, HL.
    assert (IR : is_record num typ (t ++ p) d) by (exists t, (8 * num + typ), p; auto 10).
    match goal with |- context [decode_loop E rec fuel (E id) D get None ?tm slots ?un r'] =>
      specialize (IH id D get None tm slots un r' u ltac:(lia) ltac:(lia) Logic.I) end.
    assert (Wn : wtg u (TStruct id) (VStruct slots (appendToUnknownFields (E id) unk (t ++ p)))).
    { apply wtg_struct in W as [WS WU]. apply wtg_struct. split; [exact WS|]. unfold appendToUnknownFields.
      destruct (sd_unknown (E id)) eqn:HU; [|exact WU]. split; [reflexivity|].
      destruct unk as [un|]; [eapply Q_app; eauto; apply WU|]. change (t ++ p) with ([] ++ (t ++ p)). eapply Q_app; eauto. }
    specialize (IH Wn).
    match type of IH with match ?d with _ => _ end => destruct d as [v' []|v' e| |] end; auto.
    destruct IH as [RS Wv]. split; [|exact Wv]. eapply rs_unknown; eauto.
Qed.
End Loop.

Theorem DecodeStruct1 : forall fuel path P id D b x x', (length b < fuel)%nat -> decodes E D id b x x' ->
  DecodeStruct E fuel path P id D b x = DOk x' tt.
Proof.
  clear Q_nil Q_app.
  induction fuel as [|fuel IH]; intros path P id D b x x' HF R; [lia|].
  inversion R; subst. cbn [DecodeStruct]. destruct (Z.eqb_spec D 0); [congruence|].
  cbv zeta. apply loop1 with (L := fuel); [|lia|lia|exact I|].
  - intros. apply IH; assumption.
  - unfold resetUnknownFields. destruct (sd_unknown (E id)); [|assumption]. destruct unk; assumption.
Qed.

Theorem DecodeStruct2 : forall fuel path P id D b x u, (length b < fuel)%nat -> wtg u (TStruct id) x ->
  match DecodeStruct E fuel path P id D b x with
  | DOk x' _ => decodes E D id b x x' /\ wtg u (TStruct id) x'
  | DErr x' _ => wtg true (TStruct id) x'
  | _ => False
  end.
Proof.
  induction fuel as [|fuel IH]; intros path P id D b x u HF W; [lia|].
  cbn [DecodeStruct]. destruct (Z.eqb_spec D 0); [eapply wtg_up, W|].
  apply wt_struct_inv in W as W0. destruct W0 as (slots & unk & -> & WS & WU). cbv zeta.
  match goal with |- context [decode_loop E ?rc ?fl (E id) D ?g ?c ?tm slots ?un b] =>
    pose proof (loop2 rc fuel (fun rest id D b x u H W => IH (rest :: path) P id D b x u H W) fl id D g c tm slots un b u
      ltac:(lia) ltac:(lia) Logic.I) as X end.
  assert (Wn : wtg u (TStruct id) (VStruct slots (resetUnknownFields (E id) unk))).
  { apply wtg_struct. split; [exact WS|]. unfold resetUnknownFields. destruct (sd_unknown (E id)) eqn:HU; [|exact WU].
    destruct unk; [|exact WU]. split; [reflexivity|apply Q_nil]. }
  specialize (X Wn).
  match type of X with match ?d with _ => _ end => destruct d as [v' []|v' e| |] end; auto.
  destruct X as [RS Wv]. split; [|exact Wv]. constructor; [assumption|].
  unfold resetUnknownFields in RS. destruct (sd_unknown (E id)); [|exact RS]. destruct unk; exact RS.
Qed.
End Dec.
