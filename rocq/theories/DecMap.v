(** Map entries: the specialised and the generic reader against the decoding
    specification. *)
From Verif Require Import Base Wire WireSpec WireProofs WireConsume WireFacts Coder MapTables Value WireVal Desc MsgSpec ValFacts ScalarProofs Encoder EncProofs Sizer SizeProofs Decoder DecSpec DecScalar.
From Coq Require Import Lia ZifyBool ZifyNat ZifyN Init.Byte.
Open Scope N_scope.

Lemma parses_ext_err : forall {A} f g (R : bytes -> A -> Prop), parses f R ->
  (forall b, g b = f b \/ exists e e', g b = Err e /\ f b = Err e') -> parses g R.
Proof.
  intros A f g R [H1 H2] E. split.
  - intros p t a HR. specialize (H1 _ t _ HR). destruct (E (p ++ t)) as [->|(e & e' & _ & X)]; congruence.
  - intro b. specialize (H2 b). destruct (E b) as [->|(e & e' & -> & _)]; auto.
Qed.

(** A one-byte tag with field number [num], then what [R] says for its wire type. *)
Definition tagged {A} (num : N) (R : N -> bytes -> A -> Prop) (q : bytes) (a : A) : Prop :=
  exists c t p, q = c :: p /\ b2n c = 8 * num + t /\ t < 8 /\ R t p a.
Definition with_tag {A} (num : N) (g : N -> bytes -> res (A * nat)) (b : bytes) : res (A * nat) :=
  match ConsumeKVTag b with
  | Some (n, typ) =>
      if n =? num then do b1 <- slice_from b 1; do (a, m) <- g typ b1; Ok (a, S m) else Err EKVNum
  | None => Err EKVNum
  end.

Lemma kvtag : forall c b num t, b2n c = 8 * num + t -> t < 8 -> 8 * num + t < 128 ->
  ConsumeKVTag (c :: b) = Some (num, t).
Proof.
  intros c b num t H Ht Hn. unfold ConsumeKVTag. rewrite H.
  destruct (8 * num + t <? 128) eqn:E; [|lia].
  rewrite N.shiftr_div_pow2. change 7 with (N.ones 3). rewrite N.land_ones. change (2^3) with 8.
  do 2 f_equal; lia.
Qed.
Lemma kvtag_inv : forall b num t, ConsumeKVTag b = Some (num, t) ->
  exists c r, b = c :: r /\ b2n c = 8 * num + t /\ t < 8.
Proof.
  intros [|c b] num t H; [discriminate|]. cbn [ConsumeKVTag] in H. destruct (b2n c <? 128); [|discriminate].
  rewrite N.shiftr_div_pow2 in H. change 7 with (N.ones 3) in H. rewrite N.land_ones in H. change (2^3) with 8 in H.
  injection H as <- <-. exists c, b. split; [reflexivity|]. lia.
Qed.

Lemma parses_tagged : forall {A} num g (R : N -> bytes -> A -> Prop), num < 15 ->
  (forall typ, typ < 8 -> parses (g typ) (R typ)) -> parses (with_tag num g) (tagged num R).
Proof.
  intros A num g R Hn H. split.
  - intros q r a (c & t & p & -> & Hc & Ht & HR). unfold with_tag. cbn [app].
    rewrite (kvtag c (p ++ r) num t) by lia. rewrite N.eqb_refl.
    change (c :: p ++ r) with ([c] ++ (p ++ r)). change 1%nat with (length [c]). rewrite slice_from_app. cbn [bind].
    destruct (H t Ht) as [H1 _]. rewrite (H1 _ _ _ HR). reflexivity.
  - intro b. unfold with_tag. destruct (ConsumeKVTag b) as [[n t]|] eqn:K; [|exact I].
    apply kvtag_inv in K as (c & r & -> & Hc & Ht). destruct (N.eqb_spec n num) as [->|]; [|exact I].
    change (c :: r) with ([c] ++ r). change 1%nat with (length [c]) at 1. rewrite slice_from_app. cbn [bind].
    destruct (H t Ht) as [_ H2]. specialize (H2 r). destruct (g t r) as [[a m]| | |]; cbn [bind]; auto.
    destruct H2 as (p & s & -> & -> & HR). exists (c :: p), s. split; [reflexivity|]. split; [reflexivity|].
    exists c, t, p. auto.
Qed.

(** ** The generic reader of keys *)
Lemma DecodeMapKey_spec : forall E D f kt k0, key_ok (f_ktag f) kt = true ->
  parses (fun b => DecodeMapKey f kt b k0)
    (tagged 1 (fun t p k => reads E D false (f_ktag f) kt t p k0 k)).
Proof.
  intros E D f kt k0 H. eapply parses_ext_err.
  - apply (parses_tagged 1 (fun typ b => leaf_read (f_ktag f) kt typ b k0)); [lia|].
    intros typ _. apply leaf_read_spec. now apply key_ok_leaf.
  - intro b. cbv beta. unfold DecodeMapKey, with_tag.
    destruct (ConsumeKVTag b) as [[n t]|] eqn:K; [|auto].
    destruct (N.eqb_spec n 1) as [->|Hn].
    + apply kvtag_inv in K as (c & r & -> & _ & _).
      change (c :: r) with ([c] ++ r). change 1%nat with (length [c]). rewrite slice_from_app. cbn [bind].
      unfold leaf_read. destruct (dec_scalar (f_ktag f) kt t r k0) as [x|] eqn:DS; [left; reflexivity|].
      destruct (t =? WBytes); [|right; cbn [bind]; eauto].
      destruct kt as [k| | | | | | | |]; try discriminate H.
      * right. destruct (ConsumeBytes_safe r). destruct (ConsumeBytes r) as [[fb n]| | |]; cbn [bind]; eauto; easy.
      * left. destruct (ConsumeBytes r) as [[fb n]| | |]; reflexivity.
    + right. exists EKVNum, EKVNum. split; [|reflexivity]. destruct n as [|[|[]|]]; try reflexivity. congruence.
Qed.

(** ** The specialised readers *)
Definition dec_of (c : coder) : mapdec * mapconv :=
  match c with
  | CVarint64 => (DVarint, XId)
  | CZigZag32 => (DVarint, XZigZag32)
  | CZigZag64 => (DVarint, XZigZag64)
  | CFixed32 => (DFixed32, XId)
  | CFixed64 => (DFixed64, XId)
  | CBool => (DBool, XId)
  | _ => (DVarint, XU32)
  end.

Definition dec_fast (dc : mapdec * mapconv) (num : N) (b : bytes) : res (N * nat) :=
  do (v, n) <- decodeMap (fst dc) b num; Ok (mapconv_fn (snd dc) v, n).

Lemma dec_fast_spec : forall tag k num, scalar_ok tag k = true -> num < 15 ->
  parses (dec_fast (dec_of (getCoderType tag (RScalar k))) num) (tagged num (reads_scalar true tag k)).
Proof.
  intros tag k num H Hn.
  assert (TG : forall b typ (g : bytes -> res (N * nat)) h,
    (do (v, n) <- (do b1 <- map_tag b num typ; do (v, n) <- g b1; Ok (v, S n)); Ok (h v, n)) =
      with_tag num (fun t b => if t =? typ then do (v, n) <- g b; Ok (h v, n) else Err EWireType) b \/
    exists e e', (do (v, n) <- (do b1 <- map_tag b num typ; do (v, n) <- g b1; Ok (v, S n)); Ok (h v, n) : res (N * nat)) = Err e /\
       with_tag num (fun t b => if t =? typ then do (v, n) <- g b; Ok (h v, n) else Err EWireType) b = Err e').
  { intros b typ g h. unfold map_tag, with_tag. destruct (ConsumeKVTag b) as [[n t]|] eqn:K; [|right; cbn [bind]; eauto].
    destruct (N.eqb_spec n num) as [->|]; cbn [negb]; [|right; cbn [bind]; eauto].
    apply kvtag_inv in K as (c & r & -> & _ & _). 
    change (c :: r) with ([c] ++ r). change 1%nat with (length [c]). rewrite slice_from_app. cbn [bind].
    destruct (t =? typ); cbn [negb]; [|right; cbn [bind]; eauto]. left. cbn [bind].
    destruct (g r) as [[v n]| | |]; reflexivity. }
  assert (GO : forall typ d c (g : bytes -> res (N * nat)) (R : bytes -> N -> Prop), typ < 8 ->
    (forall b, decodeMap d b num = (do b1 <- map_tag b num typ; do (v, n) <- g b1; Ok (v, S n))) ->
    parses g R -> (forall t p n, reads_scalar true tag k t p n <-> t = typ /\ exists m, R p m /\ n = mapconv_fn c m) ->
    parses (dec_fast (d, c) num) (tagged num (reads_scalar true tag k))).
  { intros typ d c g R Ht Hd PR HR. eapply parses_ext_err.
    - apply (parses_tagged num (fun t b => if t =? typ then do (v, n) <- g b; Ok (mapconv_fn c v, n) else Err EWireType)).
      + assumption.
      + intros t Ht'. destruct (N.eqb_spec t typ) as [->|Hne].
        * eapply parses_ext; [apply (parses_map (mapconv_fn c)), PR|reflexivity|]. intros p a. rewrite HR.
          split; [intros (_ & m & X & ->); eauto|intros (m & X & ->); eauto].
        * eapply parses_ext; [apply parses_err|reflexivity|]. intros p a. rewrite HR. easy.
    - intro b. unfold dec_fast. cbn [fst snd]. rewrite Hd. apply TG. }
  assert (VA : In tag [TagVarint; TagZigZag32; TagZigZag64] -> k <> Bool -> forall c,
     (forall n, n < 2^64 -> mapconv_fn c n = varint_store tag k n) ->
     parses (dec_fast (DVarint, c) num) (tagged num (reads_scalar true tag k))).
  { intros T K c C. apply (GO 0 DVarint c ConsumeVarint valid_varint); [reflexivity| |apply parses_varint|].
    - intro b. cbn [decodeMap]. destruct (map_tag b num WVarint) as [b1| | |] eqn:E; unfold WVarint in E; rewrite E;
        cbn [bind]; rewrite ?consume_fast; reflexivity.
    - intros t p n. split.
      + intro R. inversion R; subst; try congruence; try (exfalso; cbn in T; intuition congruence).
        split; [reflexivity|]. eexists. split; [eassumption|]. symmetry. apply C.
        match goal with H : valid_varint _ _ |- _ => apply H end.
      + intros (-> & m & V & ->). rewrite C by apply V. constructor; auto. }
  assert (F4 : tag = TagFixed32 -> parses (dec_fast (DFixed32, XId) num) (tagged num (reads_scalar true tag k))).
  { intros ->. apply (GO 5 DFixed32 XId ConsumeFixed32 (fun p v => length p = 4%nat /\ v = le_value p));
      [reflexivity|reflexivity|apply parses_fixed32|].
    intros t p n. split.
    - intro R. inversion R; subst; try discriminate; eauto 6.
      all: try (cbn in *; intuition congruence).
      all: try (destruct k; discriminate).
    - intros (-> & m & [L ->] & ->). now constructor. }
  assert (F8 : tag = TagFixed64 -> parses (dec_fast (DFixed64, XId) num) (tagged num (reads_scalar true tag k))).
  { intros ->. apply (GO 1 DFixed64 XId ConsumeFixed64 (fun p v => length p = 8%nat /\ v = le_value p));
      [reflexivity|reflexivity|apply parses_fixed64|].
    intros t p n. split.
    - intro R. inversion R; subst; try discriminate; eauto 6.
      all: try (cbn in *; intuition congruence).
      all: try (destruct k; discriminate).
    - intros (-> & m & [L ->] & ->). now constructor. }
  destruct tag, k; try discriminate H; cbn [getCoderType dec_of]; auto.
  all: try (apply VA; [cbn; auto|discriminate|]; intros n Hn'; cbn [varint_store mapconv_fn];
            rewrite ?DecodeZigZag_un by assumption; rewrite ?wrap32_u64; reflexivity).
  (* bool *)
  eapply parses_ext_err.
  - apply (parses_tagged num (fun t b => if t =? 0 then match b with c :: _ => Ok (if b2n c =? 0 then 0 else 1, 1%nat) | [] => Err EUnexpectedEOF end else Err EWireType)).
    + assumption.
    + intros t _. destruct (N.eqb_spec t 0) as [->|].
      * split.
        -- intros p r a R. inversion R; subst; try congruence; [|reflexivity].
           match goal with H : _ \/ _ |- _ => destruct H; congruence end.
        -- intros [|c b]; [exact I|]. exists [c], b. repeat split. now constructor.
      * apply parses_fail; [eauto|]. intros p a R. inversion R; subst; try congruence.
  - intro b. unfold dec_fast. cbn [fst snd decodeMap mapconv_fn]. unfold map_tag, with_tag.
    destruct b as [|c [|c2 b]]; cbn [length Nat.ltb Nat.leb].
    + right. cbn. eauto.
    + right. destruct (ConsumeKVTag [c]) as [[n t]|]; [|cbn; eauto].
      destruct (n =? num); cbn; [|eauto]. destruct (t =? 0); cbn; eauto.
    + destruct (ConsumeKVTag (c :: c2 :: b)) as [[n t]|]; [|cbn; eauto].
      unfold WVarint. destruct (n =? num); cbn [negb]; [|cbn; eauto 6]. destruct (t =? 0); cbn; eauto 6.
Qed.

Definition mapdec_eqb (a b : mapdec) := match a, b with
  | DVarint, DVarint | DFixed32, DFixed32 | DFixed64, DFixed64 | DBool, DBool => true | _, _ => false end.
Definition mapconv_eqb (a b : mapconv) := match a, b with
  | XU32, XU32 | XId, XId | XZigZag64, XZigZag64 | XZigZag32, XZigZag32 => true | _, _ => false end.

Lemma map_rows_decoder : forall ck cv row, GetMapDecoderFunc ck cv = Some row -> row = (dec_of ck, dec_of cv).
Proof.
  intros ck cv row H. apply lookup2_in in H.
  assert (A : forallb (fun r => let '((ck, cv), ((d1, c1), (d2, c2))) := r in
     mapdec_eqb d1 (fst (dec_of ck)) && mapconv_eqb c1 (snd (dec_of ck)) &&
     mapdec_eqb d2 (fst (dec_of cv)) && mapconv_eqb c2 (snd (dec_of cv))) mapDecoderFuncs = true) by (vm_compute; reflexivity).
  rewrite forallb_forall in A. apply A in H. destruct row as [[d1 c1] [d2 c2]].
  apply andb_prop in H as [H H4]. apply andb_prop in H as [H H3]. apply andb_prop in H as [H1 H2].
  destruct (dec_of ck) as [x1 y1], (dec_of cv) as [x2 y2]. cbn [fst snd] in *.
  destruct d1, x1; try discriminate H1; destruct c1, y1; try discriminate H2;
  destruct d2, x2; try discriminate H3; destruct c2, y2; try discriminate H4; reflexivity.
Qed.

(** Which path a map field takes. *)
Lemma map_path : forall f kt vt, f_T f = TMap kt vt -> key_ok (f_ktag f) kt = true -> elem_ok (f_vtag f) vt = true ->
  match getMapDecodeFunc f with
  | Some row => exists kk vk, kt = TScalar kk /\ vt = TScalar vk /\ raw_bools kt vt (f_vtag f) = true /\
      row = (dec_of (getCoderType (f_ktag f) (RScalar kk)), dec_of (getCoderType (f_vtag f) (RScalar vk)))
  | None => raw_bools kt vt (f_vtag f) = false \/ (kt = TScalar Uint32 /\ vt = TScalar Int32)
  end.
Proof.
  intros f kt vt T K V. unfold getMapDecodeFunc, mapKV. rewrite T. cbn [fst snd].
  destruct (GetMapDecoderFunc (getCoderType (f_ktag f) (kindOf kt)) (getCoderType (f_vtag f) (kindOf vt))) as [row|] eqn:G.
  - pose proof (map_rows_decoder _ _ _ G) as R.
    destruct kt as [kk| | | | | | | |]; try discriminate K.
    2: { destruct (f_ktag f); try discriminate K. exfalso. clear R K T. destruct (f_vtag f); destruct vt as [[]| | | | | | | |]; discriminate G. }
    destruct vt as [vk| | | |t| | | |]; try discriminate V.
    + exists kk, vk. repeat split; auto. cbn [raw_bools]. destruct kk; auto. destruct vk; auto.
      destruct (f_ktag f); try discriminate K. destruct (f_vtag f); try discriminate V; try reflexivity. discriminate G.
    + destruct (f_vtag f); try discriminate V. exfalso. clear R V T. destruct (f_ktag f), kk; discriminate G.
    + destruct (f_vtag f); try discriminate V. exfalso. clear R V T. destruct (f_ktag f), kk; discriminate G.
    + destruct (f_vtag f); try discriminate V. exfalso. clear R V T. destruct (f_ktag f), kk; discriminate G.
    + assert (X : f_vtag f = TagBytes) by (destruct t; try discriminate V; destruct (f_vtag f); easy).
      rewrite X in G. exfalso. destruct (f_ktag f), kk; discriminate G.
  - destruct kt as [kk| | | | | | | |]; auto. destruct vt as [vk| | | | | | | |]; auto.
    + destruct (f_ktag f), kk; try discriminate K; destruct (f_vtag f), vk; try discriminate V; vm_compute in G;
        try discriminate G; auto.
    + left. destruct kk; reflexivity.
    + left. destruct kk; reflexivity.
    + left. destruct kk; reflexivity.
    + left. destruct kk; reflexivity.
    + left. destruct kk; reflexivity.
    + left. destruct kk; reflexivity.
    + left. destruct kk; reflexivity.
    + left. destruct kk; reflexivity.
Qed.

Lemma reads_scalar_raw : forall raw raw' tag k typ p n, k <> Bool ->
  reads_scalar raw tag k typ p n -> reads_scalar raw' tag k typ p n.
Proof. intros raw raw' tag k typ p n K R. destruct R; try congruence; constructor; auto. Qed.

(** A whole entry through the specialised reader. *)
Lemma DecodeMapKV_spec : forall ktag kk vtag vk, scalar_ok ktag kk = true -> scalar_ok vtag vk = true ->
  let row := (dec_of (getCoderType ktag (RScalar kk)), dec_of (getCoderType vtag (RScalar vk))) in
  (forall q1 q2 junk kn vn, tagged 1 (reads_scalar true ktag kk) q1 kn -> tagged 2 (reads_scalar true vtag vk) q2 vn ->
     DecodeMapKV row (q1 ++ q2 ++ junk) = Ok (VNum kn, VNum vn)) /\
  (forall b, match DecodeMapKV row b with
   | Ok (k, v) => exists q1 q2 junk kn vn, b = q1 ++ q2 ++ junk /\ k = VNum kn /\ v = VNum vn /\
       tagged 1 (reads_scalar true ktag kk) q1 kn /\ tagged 2 (reads_scalar true vtag vk) q2 vn
   | Err _ => True
   | _ => False
   end).
Proof.
  intros ktag kk vtag vk HK HV row.
  destruct (dec_fast_spec ktag kk 1 HK) as [K1 K2]; [reflexivity|].
  destruct (dec_fast_spec vtag vk 2 HV) as [V1 V2]; [reflexivity|].
  assert (EQ : forall b, DecodeMapKV row b =
     do (k, n) <- dec_fast (fst row) 1 b; do b1 <- slice_from b n; do (v, _) <- dec_fast (snd row) 2 b1; Ok (VNum k, VNum v)).
  { intro b. unfold DecodeMapKV, dec_fast. destruct row as [[dk ck] [dv cv]]. cbn [fst snd].
    destruct (decodeMap dk b 1) as [[k n]| | |]; cbn [bind]; auto.
    destruct (slice_from b n) as [b1| | |]; cbn [bind]; auto.
    destruct (decodeMap dv b1 2) as [[v m]| | |]; reflexivity. }
  split.
  - intros q1 q2 junk kn vn T1 T2. rewrite EQ. cbn [fst snd row]. rewrite (K1 _ _ _ T1). cbn [bind].
    rewrite slice_from_app. cbn [bind]. rewrite (V1 _ _ _ T2). reflexivity.
  - intro b. rewrite EQ. cbn [fst snd row]. specialize (K2 b).
    destruct (dec_fast (dec_of (getCoderType ktag (RScalar kk))) 1 b) as [[k n]| | |]; cbn [bind]; auto.
    destruct K2 as (q1 & t & -> & -> & T1). rewrite slice_from_app. cbn [bind]. specialize (V2 t).
    destruct (dec_fast (dec_of (getCoderType vtag (RScalar vk))) 2 t) as [[v m]| | |]; cbn [bind]; auto.
    destruct V2 as (q2 & junk & -> & -> & T2). exists q1, q2, junk, k, v. auto.
Qed.
