(** The specialised map functions against the reflective loops. *)
From Verif Require Import Base Wire WireSpec WireFacts Coder MapTables Value WireVal Desc MsgSpec ValFacts WireConsume ScalarProofs Encoder Sizer EncProofs SizeProofs Decoder DescProofs DecSpec DecScalar DecMap DecProofs.
From Coq Require Import Lia.
Open Scope N_scope.

Lemma row_append : forall tg t m num, leaf_ok tg t = true -> enc_match (getCoderType tg (kindOf t)) m = true ->
  exists g, appendFuncs (getCoderType tg (kindOf t)) = Some g /\
    forall E Q v b, wtg E Q false t v ->
      mapenc_payload m (b ++ [n2b (N.lor (N.shiftl num 3) (mapenc_wt m))]) v =
      g (b ++ [n2b (N.lor (N.shiftl num 3) (wireTypes tg))]) v.
Proof.
  intros tg t m num H M. pose proof (leaf_append tg t H) as L. destruct (appendFuncs _) as [g|]; [|destruct L].
  exists g. split; [reflexivity|]. intros E Q v b W. destruct (L E Q v W) as (p & D & G).
  destruct (mapenc_leaf tg t m H M E Q v W) as (p' & D' & WT & G'). rewrite D in D'. injection D' as <-.
  rewrite G, G'. pose proof (leaf_wtype tg t v p H D) as X. rewrite <- WT, X. reflexivity.
Qed.
Lemma row_size : forall tg t m, leaf_ok tg t = true -> sz_match (getCoderType tg (kindOf t)) m = true ->
  exists g, sizeFuncs (getCoderType tg (kindOf t)) = Some g /\
    forall E Q v, wtg E Q false t v -> mapsz_fn m v = g v.
Proof.
  intros tg t m H M. destruct t as [k| | | | | | | |]; try discriminate H.
  - destruct tg, k; try discriminate H; cbn [kindOf getCoderType] in *; destruct m; try discriminate M; cbn [sizeFuncs];
      (eexists; split; [reflexivity|]); intros E Q v W; reflexivity.
  - destruct tg; try discriminate H. destruct m; try discriminate M. eexists. split; [reflexivity|]. intros E Q v W.
    apply wt_string_inv in W as (s & ->). reflexivity.
  - destruct tg; try discriminate H. destruct m; try discriminate M. eexists. split; [reflexivity|]. intros E Q v W.
    apply wt_bytes_inv in W as ([s|] & ->); reflexivity.
Qed.

Section Fast.
Variable E : env.
Variable Q : nat -> bytes -> Prop.
Notation wt := (wtg E Q false).

Lemma map_facts : forall f kt vt, f_T f = TMap kt vt -> supported f = true ->
  key_ok (f_ktag f) kt = true /\ elem_ok (f_vtag f) vt = true /\ leaf_ok (f_ktag f) kt = true.
Proof.
  intros f kt vt T S. unfold supported in S. rewrite T, !andb_true_iff in S. destruct S as [[[[[_ _] _] _] K] V].
  auto using key_ok_leaf.
Qed.

Lemma loop_rows : forall f kt vt mk mv gk gv m b,
  (forall v b, wt kt v -> appendMapKey mk b v = gk (AppendKeyTag b (wireTypes (f_ktag f))) v) ->
  (forall v b, wt vt v -> appendMapValue mv b v = gv (AppendValTag b (wireTypes (f_vtag f))) v) ->
  Forall (fun kv => wt kt (fst kv) /\ wt vt (snd kv)) m ->
  append_map_entries (mk, mv) b (WireTag f) m = append_map_loop f gk gv b m.
Proof.
  intros f kt vt mk mv gk gv m b HK HV F. revert b. induction F as [|[k v] m [Wk Wv] F IH]; intro b; [reflexivity|].
  cbn [append_map_entries append_map_loop fst snd] in *. unfold append_map_entry. rewrite HK by assumption.
  destruct (gk _ k) as [b1| | |]; cbn [bind]; try reflexivity. rewrite HV by assumption.
  destruct (gv _ v) as [b2| | |]; cbn [bind]; try reflexivity. apply IH.
Qed.

Lemma fast_append : forall f kt vt row v b rec, f_T f = TMap kt vt -> supported f = true -> wt (TMap kt vt) v ->
  getAppendMapFunc f = Some row -> AppendMap row b (WireTag f) v = AppendMapGeneric rec f b v.
Proof.
  intros f kt vt [mk mv] v b rec T S W R. destruct (map_facts f kt vt T S) as (HK & HV & HKl).
  unfold getAppendMapFunc, mapKV in R. rewrite T in R. cbn [fst snd] in R. apply map_rows_encoder in R as [R1 R2].
  pose proof (enc_match_leaf _ _ _ HV R2) as HVl.
  destruct (row_append _ _ _ 1 HKl R1) as (gk & GK & EK). destruct (row_append _ _ _ 2 HVl R2) as (gv & GV & EV).
  unfold AppendMap, AppendMapGeneric, keyCoder, valCoder. rewrite T. cbn [GetAppendFunc].
  rewrite (leaf_RealKind _ _ HKl), (leaf_RealKind _ _ HVl), GK, GV. cbn [opt_fn].
  apply wt_map_inv in W as (mo & -> & Wm). 
  assert (F : Forall (fun kv => wt kt (fst kv) /\ wt vt (snd kv)) (match mo with Some m => m | None => [] end)).
  { destruct mo; [apply Wm|constructor]. }
  destruct mo as [m|]; cbn [as_entries bind]; eapply loop_rows; try exact F; intros x b' WX; [eapply EK|eapply EV|eapply EK|eapply EV]; exact WX.
Qed.
Lemma typed_append : forall f kt vt v b rec, f_T f = TMap kt vt -> supported f = true -> wt (TMap kt vt) v ->
  AppendMapField rec f b v = AppendMapGeneric rec f b v.
Proof.
  intros f kt vt v b rec T S W. destruct (map_facts f kt vt T S) as (HK & HV & HKl).
  unfold AppendMapField. rewrite T. destruct (GetAppendFunc (valCoder f) false) as [g|] eqn:G; [reflexivity|].
  destruct (IsPointer vt); [|reflexivity]. unfold AppendMapGeneric. rewrite T, G.
  destruct kt as [[]| | | | | | | |]; try discriminate HK; try reflexivity.
  unfold keyCoder. rewrite T. cbn in HK. destruct (f_ktag f); try discriminate HK.
  cbn [RealKind getCoderType kindOf GetAppendFunc appendFuncs opt_fn]. reflexivity.
Qed.

Lemma fast_size : forall f kt vt row v rec, f_T f = TMap kt vt -> supported f = true -> wt (TMap kt vt) v ->
  getSizeMapFunc f = Some row -> SizeMap row v (WireTagSize f) = sizeMapGeneric rec f v.
Proof.
  intros f kt vt [mk mv] v rec T S W R. destruct (map_facts f kt vt T S) as (HK & HV & HKl).
  unfold getSizeMapFunc, mapKV in R. rewrite T in R. cbn [fst snd] in R. apply map_rows_sizer in R as [R1 R2].
  pose proof (sz_match_leaf _ _ _ HV R2) as HVl.
  destruct (row_size _ _ _ HKl R1) as (gk & GK & EK). destruct (row_size _ _ _ HVl R2) as (gv & GV & EV).
  unfold SizeMap, sizeMapGeneric, keyCoder, valCoder. rewrite T.
  rewrite (leaf_RealKind _ _ HKl), (leaf_RealKind _ _ HVl), GK, GV. cbn [opt_sz].
  apply wt_map_inv in W as (mo & -> & Wm). 
  assert (F : Forall (fun kv => wt kt (fst kv) /\ wt vt (snd kv)) (match mo with Some m => m | None => [] end)).
  { destruct mo; [apply Wm|constructor]. }
  assert (X : forall m, Forall (fun kv => wt kt (fst kv) /\ wt vt (snd kv)) m ->
    size_map_entries (mk, mv) (WireTagSize f) m = size_map_loop f gk gv m).
  { intros m FM. unfold size_map_loop. induction FM as [|[k x] m [Wk Wx] FM IH]; [reflexivity|].
    cbn [size_map_entries sum_res fst snd] in *. rewrite (EK E Q k Wk). destruct (gk k); cbn [bind]; try reflexivity.
    rewrite (EV E Q x Wx). destruct (gv x); cbn [bind]; try reflexivity. rewrite IH. reflexivity. }
  destruct mo as [m|]; cbn [as_entries bind]; now apply X.
Qed.
Lemma typed_size : forall f kt vt v rec, f_T f = TMap kt vt -> supported f = true -> wt (TMap kt vt) v ->
  getSizeMapFunc f = None -> sizeMapField rec f v = sizeMapGeneric rec f v.
Proof.
  intros f kt vt v rec T S W R. destruct (map_facts f kt vt T S) as (HK & HV & HKl).
  unfold sizeMapField. rewrite T, R. destruct (sizeFuncs (valCoder f)) as [g|] eqn:G; [reflexivity|].
  destruct (IsPointer vt); [|reflexivity]. unfold sizeMapGeneric, keyCoder. rewrite T, G.
  apply wt_map_inv in W as (mo & -> & Wm).
  assert (X : forall g1 g2 m, (forall k, wt kt k -> g1 k = g2 k) -> Forall (fun kv => wt kt (fst kv) /\ wt vt (snd kv)) m ->
     size_map_loop f g1 (size_elem rec vt) m = size_map_loop f g2 (size_elem rec vt) m).
  { intros g1 g2 m EQ FM. unfold size_map_loop. induction FM as [|[k x] m [Wk Wx] FM IH]; [reflexivity|].
    cbn [sum_res fst snd] in *. rewrite (EQ k Wk). destruct (g2 k); cbn [bind]; try reflexivity.
    destruct (size_elem rec vt x); cbn [bind]; try reflexivity. rewrite IH. reflexivity. }
  assert (F : Forall (fun kv => wt kt (fst kv) /\ wt vt (snd kv)) (match mo with Some m => m | None => [] end)).
  { destruct mo; [apply Wm|constructor]. }
  assert (AE : as_entries (VMap mo) = Ok (match mo with Some m => m | None => [] end)) by (destruct mo; reflexivity).
  rewrite AE. cbn [bind].
  destruct kt as [[]| | | | | | | |]; try discriminate HK; try reflexivity; cbn [kindOf].
  all: try (apply X; [|exact F]; intros k WK).
  all: try (apply wt_scalar_inv in WK as (n & -> & _); destruct (f_ktag f); try discriminate HK; reflexivity).
  apply wt_string_inv in WK as (s & ->). cbn in HK. destruct (f_ktag f); try discriminate HK. reflexivity.
Qed.

Definition no_bool (t : gotype) : Prop := t <> TScalar Bool.

(** Decoding one entry. *)
Lemma fast_decode : forall f kt vt row rec D b m tmp, f_T f = TMap kt vt -> supported f = true ->
  getMapDecodeFunc f = Some row -> no_bool kt -> no_bool vt ->
  match DecodeMapKV row b with
  | Ok (k, v) => exists tmp', DecodeMapPair E rec f kt vt D b (VMap m) tmp = DOk (VMap (Some (map_set (match m with Some x => x | None => [] end) k v))) tmp'
  | Err _ => exists m' e, DecodeMapPair E rec f kt vt D b (VMap m) tmp = DErr (VMap m') e
  | _ => False
  end.
Proof.
  intros f kt vt row rec D b m tmp T S R NK NV. destruct (map_facts f kt vt T S) as (HK & HV & HKl).
  pose proof (map_path f kt vt T HK HV) as MP. rewrite R in MP. destruct MP as (kk & vk & -> & -> & _ & ->). clear R.
  assert (BK : kk <> Bool) by (intros ->; now apply NK). assert (BV : vk <> Bool) by (intros ->; now apply NV).
  cbn [key_ok elem_ok value_ok] in HK, HV. apply andb_prop in HK as HK'. destruct HK' as [SK _].
  destruct (DecodeMapKV_spec (f_ktag f) kk (f_vtag f) vk SK HV) as [F1 F2].
  set (row := (dec_of (getCoderType (f_ktag f) (RScalar kk)), dec_of (getCoderType (f_vtag f) (RScalar vk)))) in *.
  destruct (DecodeMapKey_spec E D f (TScalar kk) (fst (tmp_reset E (TScalar vk) tmp)) HK) as [K1 K2].
  set (v0 := snd (tmp_reset E (TScalar vk) tmp)).
  destruct (parses_tagged 2 (fun typ b => leaf_read (f_vtag f) (TScalar vk) typ b v0)
    (fun t p v => reads E D false (f_vtag f) (TScalar vk) t p v0 v)) as [V1 V2]; [lia|intros t _; now apply leaf_read_spec|].
  unfold DecodeMapPair. fold v0.
  specialize (F2 b). destruct (DecodeMapKV row b) as [[k v]|e| |] eqn:ROW; [| |destruct F2|destruct F2].
  - destruct F2 as (q1 & q2 & junk & kn & vn & -> & -> & -> & T1 & T2).
    rewrite (K1 q1 (q2 ++ junk) (VNum kn)).
    2:{ destruct T1 as (c & t & p & -> & HC & HT & RS). exists c, t, p. repeat split; auto.
        constructor. eapply reads_scalar_raw; eassumption. }
    cbn [dbind]. rewrite slice_from_app. cbn [dbind].
    assert (X : with_tag 2 (fun typ b => leaf_read (f_vtag f) (TScalar vk) typ b v0) (q2 ++ junk) = Ok (VNum vn, length q2)).
    { apply V1. destruct T2 as (c & t & p & -> & HC & HT & RS). exists c, t, p. repeat split; auto.
        constructor. eapply reads_scalar_raw; eassumption. }
    pose proof (DecodeMapValue_leaf E rec f (TScalar vk) D (q2 ++ junk) v0 HV) as Y. rewrite X in Y.
    destruct (DecodeMapValue E rec f (TScalar vk) D (q2 ++ junk) v0) as [v' []| | |]; try (exfalso; exact Y). subst. eauto.
  - specialize (K2 b). cbv beta in K2.
    destruct (DecodeMapKey f (TScalar kk) b (fst (tmp_reset E (TScalar vk) tmp))) as [[k n]|e'| |]; cbn [dbind];
      [|eauto|destruct K2|destruct K2].
    destruct K2 as (q1 & r & -> & -> & T1). rewrite slice_from_app. cbn [dbind].
    specialize (V2 r). pose proof (DecodeMapValue_leaf E rec f (TScalar vk) D r v0 HV) as Y.
    destruct (with_tag 2 _ r) as [[v n]|e'| |]; [| |destruct V2|destruct V2].
    + exfalso. destruct V2 as (q2 & junk & -> & -> & T2).
      destruct T1 as (c & t & p & -> & HC & HT & RS). destruct T2 as (c' & t' & p' & -> & HC' & HT' & RS').
      apply reads_scalar_inv in RS as (kn & -> & RS). apply reads_scalar_inv in RS' as (vn & -> & RS').
      assert (X : DecodeMapKV row ((c :: p) ++ (c' :: p') ++ junk) = Ok (VNum kn, VNum vn)).
      { apply F1; [exists c, t, p|exists c', t', p']; repeat split; auto; eapply reads_scalar_raw; eassumption. }
      rewrite X in ROW. discriminate ROW.
    + destruct (DecodeMapValue E rec f (TScalar vk) D r v0) as [v' []| | |]; try (exfalso; exact Y). eauto.
Qed.
End Fast.
