(** The sizer against the message specification. *)
From Verif Require Import Base Wire WireSpec WireProofs WireConsume WireFacts Coder MapTables Value WireVal Desc MsgSpec ValFacts Writes Encoder Sizer ScalarProofs EncProofs.
From Coq Require Import Lia ZifyBool ZifyNat ZifyN Init.Byte.
Open Scope N_scope.

Definition sizes (r : res N) (o : option bytes) : Prop :=
  match o with
  | Some s => exists n, r = Ok n /\ (small s \/ n < 2^63 -> n = blen s)
  | None => r = Err EMaxDepth
  end.

Lemma blen_app : forall (a b : bytes), blen (a ++ b) = blen a + blen b.
Proof. intros. unfold blen. rewrite app_length. lia. Qed.

Lemma sizes_pure : forall r s, r = Ok (blen s) -> sizes r (Some s).
Proof. intros r s ->. exists (blen s). auto. Qed.

Lemma sizes_add : forall r o s, sizes r o -> sizes (do n <- r; Ok (blen s + n)) (oapp (Some s) o).
Proof.
  intros r o s H. destruct o as [t|]; cbn [oapp]; [|now rewrite H].
  destruct H as (n & -> & H). cbn [bind]. eexists; split; [reflexivity|]. intro S.
  rewrite H; [now rewrite blen_app|]. destruct S as [S|S]; [left; now apply small_app_r in S|right; lia].
Qed.

Lemma sizes_seq : forall r1 r2 o1 o2, sizes r1 o1 -> sizes r2 o2 ->
  sizes (do x <- r1; do y <- r2; Ok (x + y)) (oapp o1 o2).
Proof.
  intros r1 r2 o1 o2 H1 H2. destruct o1 as [s1|]; cbn [oapp]; [|now rewrite H1].
  destruct H1 as (n1 & -> & H1). cbn [bind]. destruct o2 as [s2|]; [|now rewrite H2].
  destruct H2 as (n2 & -> & H2). cbn [bind]. eexists; split; [reflexivity|]. intro S.
  rewrite H1, H2; [now rewrite blen_app| |]; (destruct S as [S|S]; [left|right; lia]);
    (now apply small_app_l in S) || now apply small_app_r in S.
Qed.

Lemma SizeBytes_small : forall s, small s -> SizeBytes (blen s) = blen (lendelim s).
Proof.
  intros s H. unfold SizeBytes, lendelim. rewrite blen_app. rewrite SizeVarint_spec by (unfold small in H; lia).
  reflexivity.
Qed.

Lemma sizes_len : forall r o, sizes r o -> sizes (do n <- r; Ok (SizeBytes n)) (option_map lendelim o).
Proof.
  intros r o H. destruct o as [t|]; cbn [option_map]; [|now rewrite H].
  destruct H as (n & -> & H). cbn [bind]. eexists; split; [reflexivity|]. intro S.
  assert (S' : small t \/ n < 2^63).
  { destruct S as [S|S]; [left; now apply small_lendelim in S|right; unfold SizeBytes in S; lia]. }
  specialize (H S'). subst n. apply SizeBytes_small. unfold small in *. tauto.
Qed.

Lemma SizeBytes_sizes : forall s, sizes (Ok (SizeBytes (blen s))) (Some (lendelim s)).
Proof. intro s. apply (sizes_len (Ok (blen s)) (Some s)). now apply sizes_pure. Qed.

Lemma sizes_sum : forall {A} (f : A -> res N) (g : A -> option bytes) l,
  (forall x, In x l -> sizes (f x) (g x)) -> sizes (sum_res f l) (option_map (@concat _) (omap g l)).
Proof.
  intros A f g l. induction l as [|x l IH]; intro H; [now apply sizes_pure|].
  cbn [sum_res].
  replace (option_map (@concat _) (omap g (x :: l))) with
      (oapp (g x) (option_map (@concat _) (omap g l))).
  - apply sizes_seq; [apply H; now left|apply IH; intros; apply H; now right].
  - cbn [omap]. destruct (g x); [|reflexivity]. destruct (omap g l); reflexivity.
Qed.

Lemma SizeVarint_varint : forall n, n < 2^64 -> SizeVarint n = blen (varint n).
Proof. exact SizeVarint_spec. Qed.

Lemma sext32_lt : forall n, n < 2^32 -> sext32 n < 2^64.
Proof. intros n H. unfold sext32. destruct (n <? 2^31) eqn:X; lia. Qed.
Lemma zz32_lt : forall n, n < 2^32 -> zz32 n < 2^32.
Proof. intros n H. now apply zigzag_bijection. Qed.
Lemma zz64_lt : forall n, n < 2^64 -> zz64 n < 2^64.
Proof. intros n H. now apply zigzag_bijection. Qed.

(** Value-level sizes. *)
Lemma scalar_size : forall tag k n, scalar_ok tag k = true -> num_ok k n ->
  exists g, sizeFuncs (getCoderType tag (RScalar k)) = Some (num_sz g) /\ g n = blen (payload_of (scalar_den tag k n)).
Proof.
  intros tag k n H N. destruct tag, k; try discriminate H; cbn [getCoderType sizeFuncs scalar_den payload_of];
    (eexists; split; [reflexivity|]); nok N;
    unfold SizeVarintU32, SizeVarintU64, SizeVarintI32, SizeZigZag32, SizeZigZag64, SizeFixed32, SizeFixed64, SizeBool.
  all: try (unfold blen; rewrite le_bytes_length; reflexivity).
  all: try (rewrite SizeVarint_varint by (try apply sext32_lt; lia); rewrite ?sext32_spec by assumption; reflexivity).
  - rewrite varint_small by (specialize (NB eq_refl); lia). reflexivity.
  - rewrite SizeVarint_varint, zz32_spec by (assumption || (pose proof (zz32_lt _ NL); lia)). reflexivity.
  - rewrite SizeVarint_varint, zz64_spec by (assumption || now apply zz64_lt). reflexivity.
Qed.

Section Siz.
Variable E : env.
Variable Q : nat -> bytes -> Prop.
Notation wt := (wtg E Q false).

Lemma leaf_size : forall tag t, leaf_ok tag t = true ->
  exists g, sizeFuncs (getCoderType tag (kindOf t)) = Some g /\
    forall v, wt t v -> exists p, leaf_den tag t v = Some p /\ sizes (g v) (Some (payload_of p)).
Proof.
  intros tag t H. destruct t as [k| | | | | | | |]; try discriminate H.
  - destruct (scalar_size tag k 0 H) as (g & Hg & _); [split; [destruct k; reflexivity|intros ->; reflexivity]|].
    cbn [kindOf]. exists (num_sz g). split; [assumption|]. intros v W. apply wt_scalar_inv in W as (n & -> & N).
    eexists; split; [reflexivity|]. destruct (scalar_size tag k n H N) as (g' & Hg' & Hn).
    rewrite Hg in Hg'. injection Hg' as Hg'. apply sizes_pure. rewrite Hg'. cbn. now rewrite Hn.
  - destruct tag; try discriminate H. eexists; split; [reflexivity|]. intros v W.
    apply wt_string_inv in W as (s & ->). eexists; split; [reflexivity|]. apply SizeBytes_sizes.
  - destruct tag; try discriminate H. eexists; split; [reflexivity|]. intros v W.
    apply wt_bytes_inv in W as (s & ->). eexists; split; [reflexivity|].
    destruct s as [s|]; apply SizeBytes_sizes.
Qed.

Section Rec.
Variable rec : nat -> option val -> res N.
Variable recd : nat -> option val -> option pval.
Hypothesis Hrec : forall id p, optP (wt (TStruct id)) p -> sizes (rec id p) (option_map wire (recd id p)).
Hypothesis Hrecm : forall id p m, recd id p = Some m -> exists fs u, m = QMsg fs u.

Definition elem_sizer (tag : tagtype) (t : gotype) (g : val -> res N) : Prop :=
  forall v, wt t v -> sizes (g v) (option_map payload_of (value_den recd tag t v)).

Lemma leaf_sizer : forall tag t, leaf_ok tag t = true ->
  exists g, sizeFuncs (getCoderType tag (kindOf t)) = Some g /\ elem_sizer tag t g.
Proof.
  intros tag t H. destruct (leaf_size _ _ H) as (g & Hg & L). exists g. split; [assumption|].
  intros v W. destruct (L v W) as (p & Hp & Hs). now rewrite value_den_leaf, Hp.
Qed.

Lemma wire_payload : forall m fs u, m = QMsg fs u -> payload_of m = lendelim (wire m).
Proof.
  intros m fs u ->. cbn [payload_of wire]. unfold wire_fields. f_equal. f_equal. f_equal.
  apply map_ext. intros [n p]. reflexivity.
Qed.

Lemma rec_len : forall id p, optP (wt (TStruct id)) p ->
  sizes (do sz <- rec id p; Ok (SizeBytes sz)) (option_map payload_of (recd id p)).
Proof.
  intros id p W. pose proof (sizes_len _ _ (Hrec id p W)) as S.
  destruct (recd id p) as [m|] eqn:R; [|exact S]. apply Hrecm in R as (fs & u & R).
  cbn [option_map] in *. now rewrite (wire_payload _ _ _ R).
Qed.

Lemma struct_sizer : forall t, (exists id, t = TStruct id \/ t = TPtr (TStruct id)) ->
  elem_sizer TagBytes t (size_elem rec t).
Proof.
  intros t H v W. destruct (struct_elem_den _ _ _ _ H W) as (id & p & Hs & Wp & Hd).
  rewrite Hd. unfold size_elem. rewrite Hs. cbn [bind]. now apply rec_len.
Qed.

Lemma tagged_size : forall r num tg t v, elem_ok tg t = true -> wt t v ->
  sizes r (option_map payload_of (value_den recd tg t v)) ->
  sizes (do n <- r; Ok (blen (tag num (wireTypes tg)) + n))
    (option_map (fun p => record_of (num, p)) (value_den recd tg t v)).
Proof.
  intros r num tg t v Hok W S. apply (sizes_add _ _ (tag num (wireTypes tg))) in S.
  destruct (value_den recd tg t v) as [p|] eqn:D; [|exact S]. cbn in *. unfold record_of. cbn [fst snd].
  now rewrite (value_wtype E Q recd Hrecm _ _ _ _ Hok W D).
Qed.

Lemma WireTagSize_eq : forall f, (1 <= f_id f < 2^31)%Z ->
  WireTagSize f = blen (tag (field_num f) (if f_packed f then 2 else wireTypes (f_tag f))).
Proof.
  intros f H. unfold WireTagSize. rewrite SizeVarint_varint, WireTag_varint by
    (try assumption; unfold WireTag; destruct (f_packed f); (eapply N.lt_trans; [apply EncodeTag_lt; [lia|]|]);
     try apply wireTypes_lt; reflexivity). reflexivity.
Qed.

(** ** Maps *)
Lemma entry_sizer : forall f kt vt rk rv k v, (1 <= f_id f < 2^31)%Z -> f_packed f = false -> f_tag f = TagBytes ->
  key_ok (f_ktag f) kt = true -> elem_ok (f_vtag f) vt = true -> wt kt k -> wt vt v ->
  sizes rk (option_map payload_of (value_den recd (f_ktag f) kt k)) ->
  sizes rv (option_map payload_of (value_den recd (f_vtag f) vt v)) ->
  sizes (do x <- rk; do y <- rv; Ok (WireTagSize f + SizeBytes (1 + x + 1 + y)))
    (option_map (fun p => record_of (field_num f, p)) (entry_den recd recd f kt vt (k, v))).
Proof.
  intros f kt vt rk rv k v Hid Hp Ht HK HV Wk Wv Sk Sv.
  assert (HK' : elem_ok (f_ktag f) kt = true) by (apply key_ok_leaf in HK; destruct kt; try discriminate HK; exact HK).
  pose proof (tagged_size _ 1 _ _ _ HK' Wk Sk) as S1.
  pose proof (tagged_size _ 2 _ _ _ HV Wv Sv) as S2.
  pose proof (sizes_add _ _ (tag (field_num f) 2) (sizes_len _ _ (sizes_seq _ _ _ _ S1 S2))) as S.
  replace (option_map _ (entry_den _ _ _ _ _ _)) with
    (oapp (Some (tag (field_num f) 2)) (option_map lendelim (oapp
       (option_map (fun p => record_of (1, p)) (value_den recd (f_ktag f) kt k))
       (option_map (fun p => record_of (2, p)) (value_den recd (f_vtag f) vt v))))).
  2:{ unfold entry_den. cbn [fst snd].
    destruct (value_den recd (f_ktag f) kt k) as [kp|]; [|reflexivity].
    destruct (value_den recd (f_vtag f) vt v) as [vp|]; [|reflexivity].
    cbn [option_map oapp]. f_equal. unfold record_of. cbn [fst snd wtype payload_of map concat].
    now rewrite !app_nil_r. }
  replace (do x <- rk; do y <- rv; Ok (WireTagSize f + SizeBytes (1 + x + 1 + y))) with
    (do n <- (do n <- (do x <- (do n <- rk; Ok (blen (tag 1 (wireTypes (f_ktag f))) + n));
            do y <- (do n <- rv; Ok (blen (tag 2 (wireTypes (f_vtag f))) + n)); Ok (x + y)); Ok (SizeBytes n));
     Ok (blen (tag (field_num f) 2) + n)); [exact S|].
  assert (T1 : forall num t, (num = 1 \/ num = 2) -> blen (tag num (wireTypes t)) = 1).
  { intros num t Hn. unfold tag, blen. rewrite varint_small by (pose proof (wireTypes_lt t); lia). reflexivity. }
  rewrite !T1 by auto. rewrite WireTagSize_eq, Hp, Ht by assumption.
  destruct rk; try reflexivity. cbn [bind]. destruct rv; try reflexivity. cbn [bind]. do 3 f_equal. lia.
Qed.

Lemma map_loop_sizer : forall f kt vt keysz valsz m,
  (1 <= f_id f < 2^31)%Z -> f_packed f = false -> f_tag f = TagBytes ->
  key_ok (f_ktag f) kt = true -> elem_ok (f_vtag f) vt = true ->
  elem_sizer (f_ktag f) kt keysz -> elem_sizer (f_vtag f) vt valsz ->
  Forall (fun kv => wt kt (fst kv) /\ wt vt (snd kv)) m ->
  sizes (size_map_loop f keysz valsz m) (entries_den recd f kt vt m).
Proof.
  intros f kt vt keysz valsz m Hid Hp Ht HK HV Wk Wv F. rewrite entries_den_eq. unfold size_map_loop.
  apply sizes_sum. intros [k v] I. rewrite Forall_forall in F. destruct (F _ I) as [Tk Tv]. cbn [fst snd] in *.
  apply entry_sizer; auto.
Qed.

Definition sz_match (c : coder) (m : mapsz) : bool :=
  match c, m with
  | CVarintU32, SzVarintU32 | CVarintI32, SzVarintI32 | CVarint64, SzVarintU64 | CZigZag32, SzZigZag32 | CZigZag64, SzZigZag64
  | CFixed32, SzFixed32 | CFixed64, SzFixed64 | CBool, SzBool | CBytes, SzByteSlice | CString, SzString => true
  | _, _ => false
  end.

Lemma map_rows_sizer : forall ck cv mk mv, GetMapSizeFunc ck cv = Some (mk, mv) ->
  sz_match ck mk = true /\ sz_match cv mv = true.
Proof.
  intros ck cv mk mv H. apply lookup2_in in H.
  assert (A : forallb (fun r => sz_match (fst (fst r)) (fst (snd r)) && sz_match (snd (fst r)) (snd (snd r)))
                mapSizeFuncs = true) by (vm_compute; reflexivity).
  rewrite forallb_forall in A. apply A in H. now apply andb_prop in H.
Qed.

Lemma mapsz_sizer : forall tg t m, leaf_ok tg t = true -> sz_match (getCoderType tg (kindOf t)) m = true ->
  elem_sizer tg t (mapsz_fn m).
Proof.
  intros tg t m H M v W. rewrite value_den_leaf by assumption.
  destruct t as [k| | | | | | | |]; try discriminate H.
  - apply wt_scalar_inv in W as (n & -> & N). cbn [leaf_den value_den option_map]. apply sizes_pure.
    destruct tg, k; try discriminate H; cbn [kindOf getCoderType] in M; destruct m; try discriminate M;
      unfold leaf_den; cbn [scalar_den payload_of value_den option_map]; unfold mapsz_fn, num_sz; cbn [as_num bind]; nok N; f_equal.
    all: try (unfold blen; rewrite le_bytes_length; reflexivity).
    all: try (rewrite SizeVarint_varint by (try apply sext32_lt; lia); rewrite ?sext32_spec by assumption; reflexivity).
    + rewrite varint_small by (specialize (NB eq_refl); lia). reflexivity.
    + rewrite SizeVarint_varint, zz32_spec by (assumption || (pose proof (zz32_lt _ NL); lia)). reflexivity.
    + rewrite SizeVarint_varint, zz64_spec by (assumption || now apply zz64_lt). reflexivity.
  - destruct tg; try discriminate H. destruct m; try discriminate M. apply wt_string_inv in W as (s & ->).
    apply SizeBytes_sizes.
  - destruct tg; try discriminate H. destruct m; try discriminate M. apply wt_bytes_inv in W as ([s|] & ->);
    apply SizeBytes_sizes.
Qed.

Lemma sz_match_leaf : forall tg t m, elem_ok tg t = true -> sz_match (getCoderType tg (kindOf t)) m = true ->
  leaf_ok tg t = true.
Proof.
  intros tg t m H M. apply elem_ok_cases in H as [H|(-> & id & [-> | ->])]; [exact H| |];
    destruct m; discriminate M.
Qed.

Lemma key_sizers : forall tg kt, key_ok tg kt = true ->
  match kindOf kt with
  | RScalar (Int64 | Uint64) => elem_sizer tg kt (num_sz (sizeKeyU64 tg))
  | RScalar Int32 => elem_sizer tg kt (num_sz (fun k => sizeKeyU32 tg k true))
  | RScalar Uint32 => elem_sizer tg kt (num_sz (fun k => sizeKeyU32 tg k false))
  | RString => elem_sizer tg kt (fun k => do s <- as_bytes k; Ok (SizeBytes (blen s)))
  | _ => True
  end.
Proof.
  intros tg kt H. apply key_ok_leaf in H as HL. destruct kt as [k| | | | | | | |]; try discriminate H.
  - destruct k; try exact I; cbn [kindOf]; intros v W; apply wt_scalar_inv in W as (n & -> & N);
      unfold value_den; cbn [option_map]; apply sizes_pure; unfold num_sz; cbn [as_num bind]; f_equal; nok N;
      destruct tg; try discriminate H; cbn [scalar_den payload_of sizeKeyU64 sizeKeyU32].
    all: try (unfold blen; rewrite le_bytes_length; reflexivity).
    all: try (rewrite SizeVarint_varint by (try apply sext32_lt; lia); rewrite ?sext32_spec by assumption; reflexivity).
    + rewrite SizeVarint_varint, zz32_spec by (assumption || (pose proof (zz32_lt _ NL); lia)). reflexivity.
    + rewrite SizeVarint_varint, zz64_spec by (assumption || now apply zz64_lt). reflexivity.
  - cbn [kindOf]. intros v W. apply wt_string_inv in W as (s & ->). 
    apply SizeBytes_sizes.
Qed.

Lemma map_sizer : forall f kt vt v, f_T f = TMap kt vt ->
  (1 <= f_id f < 2^31)%Z -> f_packed f = false -> f_tag f = TagBytes ->
  key_ok (f_ktag f) kt = true -> elem_ok (f_vtag f) vt = true -> wt (TMap kt vt) v ->
  sizes (sizeMapField rec f v)
    (entries_den recd f kt vt (match v with VMap (Some m) => m | _ => [] end)).
Proof.
  intros f kt vt v HT Hid Hp Ht HK HV W.
  apply wt_map_inv in W as (mo & -> & Wm).
  set (m := match mo with Some m => m | None => [] end).
  assert (F : Forall (fun kv => wt kt (fst kv) /\ wt vt (snd kv)) m).
  { destruct mo; [apply Wm|constructor]. }
  assert (AE : as_entries (VMap mo) = Ok m) by (destruct mo; reflexivity).
  replace (match mo with Some m => m | None => [] end) with m by reflexivity.
  pose proof (key_ok_leaf _ _ HK) as HKl. unfold sizeMapField. rewrite HT.
  destruct (getSizeMapFunc f) as [[mk mv]|] eqn:R.
  - unfold getSizeMapFunc, mapKV in R. rewrite HT in R. cbn [fst snd] in R.
    apply map_rows_sizer in R as [R1 R2]. unfold SizeMap. rewrite AE. cbn [bind].
    pose proof (mapsz_sizer _ _ _ HKl R1) as Sk.
    pose proof (mapsz_sizer _ _ _ (sz_match_leaf _ _ _ HV R2) R2) as Sv.
    replace (size_map_entries (mk, mv) (WireTagSize f) m) with (size_map_loop f (mapsz_fn mk) (mapsz_fn mv) m).
    + now apply map_loop_sizer.
    + clear. unfold size_map_loop. induction m as [|[k v] m IH]; [reflexivity|].
      cbn [sum_res size_map_entries fst snd]. rewrite <- IH.
      destruct (mapsz_fn mk k); try reflexivity. cbn [bind]. destruct (mapsz_fn mv v); reflexivity.
  - destruct (leaf_sizer _ _ HKl) as (gk & Gk & Wk).
    assert (KF : sizeFuncs (keyCoder f) = Some gk).
    { unfold keyCoder. rewrite HT. now rewrite (leaf_RealKind _ _ HKl). }
    unfold sizeMapGeneric. rewrite HT, KF. cbn [opt_sz]. rewrite AE. cbn [bind].
    apply elem_ok_cases in HV as HV'. destruct HV' as [HVl|(Hvt & HVs)].
    + destruct (leaf_sizer _ _ HVl) as (gv & Gv & Wv).
      assert (VF : sizeFuncs (valCoder f) = Some gv).
      { unfold valCoder. rewrite HT. now rewrite (leaf_RealKind _ _ HVl). }
      rewrite VF. now apply map_loop_sizer.
    + assert (VF : sizeFuncs (valCoder f) = None).
      { unfold valCoder. rewrite HT, Hvt. destruct HVs as (id & [-> | ->]); reflexivity. }
      rewrite VF.
      assert (Sv : elem_sizer (f_vtag f) vt (size_elem rec vt)) by (rewrite Hvt; now apply struct_sizer).
      assert (G : sizes (size_map_loop f gk (size_elem rec vt) m) (entries_den recd f kt vt m)) by now apply map_loop_sizer.
      destruct (IsPointer vt); [|exact G].
      pose proof (key_sizers _ _ HK) as KS.
      destruct kt as [[]| | | | | | | |]; cbn [kindOf] in *; try exact G; try discriminate HK; now apply map_loop_sizer.
Qed.

Lemma list_sizer : forall f t v, f_T f = TSlice t -> (1 <= f_id f < 2^31)%Z -> 
  elem_ok (f_tag f) t = true -> (f_packed f = true -> exists k, t = TScalar k) -> wt (TSlice t) v ->
  sizes (sizeListField rec f (TSlice t) v)
    (option_map wire_fields
      (match omap (value_den recd (f_tag f) t) (match v with VSlice e _ => e | _ => [] end) with
      | Some l => Some (if f_packed f then match l with [] => [] | _ => [(field_num f, QPacked l)] end
                        else map (fun p => (field_num f, p)) l)
      | None => None
      end)).
Proof.
  intros f t v HT Hid HV Hpk W. apply wt_slice_inv in W as (e & sp & -> & We & _).
  unfold sizeListField. cbn [as_elems bind].
  destruct e as [|e0 e']; [destruct (f_packed f); now apply sizes_pure|].
  set (e := e0 :: e') in *. cbn [length Nat.eqb e]. fold e.
  assert (FC : fieldCoder f = getCoderType (f_tag f) (RealKind t)) by (unfold fieldCoder; now rewrite HT).
  rewrite FC. destruct (f_packed f) eqn:Hp.
  - destruct (Hpk eq_refl) as (k & ->). change (elem_ok (f_tag f) (TScalar k)) with (leaf_ok (f_tag f) (TScalar k)) in HV.
    destruct (leaf_sizer _ _ HV) as (g & Hg & Sg). cbn [RealKind]. rewrite Hg. cbn [opt_sz].
    assert (S : sizes (sum_res g e) (option_map (@concat _) (omap (fun v => option_map payload_of (value_den recd (f_tag f) (TScalar k) v)) e))).
    { apply sizes_sum. intros x I. rewrite Forall_forall in We. apply Sg. now apply We. }
    rewrite omap_option_map in S. apply sizes_len in S. apply (sizes_add _ _ (tag (field_num f) 2)) in S.
    replace (do content <- sum_res g e; Ok (WireTagSize f + SizeBytes content)) with
      (do n <- (do n <- sum_res g e; Ok (SizeBytes n)); Ok (blen (tag (field_num f) 2) + n)).
    2:{ rewrite WireTagSize_eq, Hp by assumption. destruct (sum_res g e); reflexivity. }
    destruct (omap (value_den recd (f_tag f) (TScalar k)) e) as [[|p0 l]|] eqn:O; cbn [option_map oapp] in *.
    + exfalso. unfold e in O. cbn [omap] in O. destruct (value_den _ _ _ e0); [|discriminate].
      destruct (omap _ e'); discriminate.
    + unfold wire_fields. cbn [map concat]. unfold record_of at 1. cbn [fst snd wtype]. rewrite app_nil_r. exact S.
    + exact S.
  - replace (option_map wire_fields _) with
      (option_map (@concat _) (omap (fun x => option_map (fun p => record_of (field_num f, p)) (value_den recd (f_tag f) t x)) e)).
    2:{ rewrite omap_option_map. destruct (omap _ e); [|reflexivity]. cbn. unfold wire_fields. now rewrite map_map. }
    assert (WS : WireTagSize f = blen (tag (field_num f) (wireTypes (f_tag f)))) by (rewrite WireTagSize_eq, Hp by assumption; reflexivity).
    rewrite WS.
    apply elem_ok_cases in HV as HV'. destruct HV' as [HVl|(Hvt & HVs)].
    + destruct (leaf_sizer _ _ HVl) as (g & Hg & Sg). rewrite (leaf_RealKind _ _ HVl), Hg.
      apply sizes_sum. intros x I. rewrite Forall_forall in We. apply tagged_size; auto.
    + replace (sizeFuncs (getCoderType (f_tag f) (RealKind t))) with (@None (val -> res N)).
      2:{ rewrite Hvt. destruct HVs as (id & [-> | ->]); reflexivity. }
      apply sizes_sum. intros x I. rewrite Forall_forall in We. apply tagged_size; auto.
      rewrite Hvt. apply struct_sizer; auto.
Qed.

Lemma single_sizer : forall f t v, RealKind (f_T f) = RealKind t -> (1 <= f_id f < 2^31)%Z ->
  f_packed f = false -> f_rep f = false -> IsMap f = false ->
  value_ok (f_tag f) t = true -> wt t v ->
  sizes (match f_rep f, sizeFuncs (fieldCoder f) with
        | false, Some g => do x <- must (Some v); do n <- g x; Ok (WireTagSize f + n)
        | _, _ =>
            if IsList f then do x <- must (Some v); sizeListField rec f t x
            else if IsMap f then do x <- must (Some v); sizeMapField rec f x
            else
              match t with
              | TStruct id => do sz <- rec id (Some v); Ok (WireTagSize f + SizeBytes sz)
              | _ => Panic
              end
        end)
    (option_map (fun p => record_of (field_num f, p)) (value_den recd (f_tag f) t v)).
Proof.
  intros f t v HR Hid Hp Hr Hm HV W. unfold IsList. rewrite Hr, Hm. cbn [andb].
  assert (WS : WireTagSize f = blen (tag (field_num f) (wireTypes (f_tag f)))) by (rewrite WireTagSize_eq, Hp by assumption; reflexivity).
  rewrite WS.
  destruct (value_ok_elem _ _ HV) as [Ho [Hl|(id & -> & Ht)]].
  - destruct (leaf_sizer _ _ Hl) as (g & Hg & Wg).
    unfold fieldCoder. rewrite HR, (leaf_RealKind _ _ Hl), Hg. cbn [must bind].
    apply tagged_size; auto.
  - unfold fieldCoder. rewrite HR, Ht. cbn [RealKind kindOf getCoderType sizeFuncs].
    replace (do sz <- rec id (Some v); Ok (blen (tag (field_num f) (wireTypes TagBytes)) + SizeBytes sz)) with
      (do n <- (do sz <- rec id (Some v); Ok (SizeBytes sz)); Ok (blen (tag (field_num f) (wireTypes TagBytes)) + n))
      by (destruct (rec id (Some v)); reflexivity).
    apply tagged_size; auto.
    replace (value_den recd TagBytes (TStruct id) v) with (recd id (Some v)) by (destruct v; reflexivity).
    now apply rec_len.
Qed.

(** The part of size_field after the oneof test. *)
Definition size_data (f : fdesc) (v : val) : res N :=
  do skip <- skipzero E (f_T f) v;
  if skip then Ok 0
  else
    do (t, p) <- deref (f_T f) v;
    match f_rep f, sizeFuncs (fieldCoder f) with
    | false, Some g => do x <- must p; do n <- g x; Ok (WireTagSize f + n)
    | _, _ =>
        if IsList f then do x <- must p; sizeListField rec f t x
        else if IsMap f then do x <- must p; sizeMapField rec f x
        else
          match t with
          | TStruct id => do sz <- rec id p; Ok (WireTagSize f + SizeBytes sz)
          | _ => Panic
          end
    end.
Lemma size_field_eq : forall f slot, size_field E rec f slot =
  do data <- oneof_data f slot; match data with None => Ok 0 | Some v => size_data f v end.
Proof. reflexivity. Qed.

Lemma data_sizer : forall f v, (1 <= f_id f < 2^31)%Z -> supported f = true -> wt (f_T f) v ->
  sizes (size_data f v) (option_map wire_fields (data_den E recd recd f v)).
Proof.
  intros f v Hid HS W. unfold supported in HS.
  assert (Single : forall t, f_T f = t -> (match t with TScalar _ | TString | TBytes | TStruct _ => True | _ => False end) ->
    negb (f_rep f) && negb (f_packed f) && value_ok (f_tag f) t = true ->
    sizes (size_data f v)
      (option_map wire_fields (if omitted E t v then Some [] else
         option_map (fun p => [(field_num f, p)]) (value_den recd (f_tag f) t v)))).
  { intros t HT Hk HS'. rewrite HT in W.
    apply andb_prop in HS' as [HS' HV]. apply andb_prop in HS' as [Hr Hp].
    apply negb_true_iff in Hr, Hp.
    unfold size_data. rewrite HT, (skipzero_single E Q _ _ Hk W). cbn [bind].
    destruct (omitted E t v); [now apply sizes_pure|].
    rewrite <- wire_single.
    assert (Hm : IsMap f = false) by (unfold IsMap; rewrite HT; destruct t; try reflexivity; destruct Hk).
    assert (HR : RealKind (f_T f) = RealKind t) by now rewrite HT.
    replace (deref t v) with (Ok (t, Some v)) by (destruct t; try reflexivity; destruct Hk).
    cbn [bind].
    apply single_sizer; assumption. }
  unfold data_den. destruct (f_T f) as [k| | |id|t|t|kt vt|alts|] eqn:HT; try discriminate HS.
  - specialize (Single _ eq_refl I HS). destruct v; exact Single.
  - specialize (Single _ eq_refl I HS). destruct v; exact Single.
  - specialize (Single _ eq_refl I HS). destruct v; exact Single.
  - specialize (Single _ eq_refl I HS). destruct v; exact Single.
  - clear Single. apply andb_prop in HS as [HS HV]. apply andb_prop in HS as [Hr Hp].
    apply negb_true_iff in Hr, Hp.
    apply wt_ptr_inv in W as (p & -> & Wp). unfold size_data. rewrite HT.
    replace (skipzero E (TPtr t) (VPtr p)) with (Ok (match p with None => true | _ => false end)) by (destruct p; reflexivity).
    cbn [bind]. destruct p as [x|].
    + cbn [deref bind]. rewrite <- wire_single.
      assert (Hm : IsMap f = false) by (unfold IsMap; rewrite HT; reflexivity).
      assert (HR : RealKind (f_T f) = RealKind t) by now rewrite HT.
      apply single_sizer; assumption.
    + now apply sizes_pure.
  - clear Single. repeat (apply andb_prop in HS as [HS ?]).
    rename H into Hpk. rename H0 into HV. rename H1 into Ho. rename HS into Hr.
    pose proof W as W0. apply wt_slice_inv in W as (e & sp & -> & We & Wsp).
    unfold size_data. rewrite HT.
    replace (skipzero E (TSlice t) (VSlice e sp)) with (Ok (Nat.eqb (length e) 0)) by reflexivity.
    cbn [bind]. destruct e as [|e0 e']; [cbn [length Nat.eqb omap]; destruct (f_packed f); now apply sizes_pure|].
    cbn [length Nat.eqb deref bind must].
    unfold IsList, IsMap. rewrite HT, Hr. cbn [andb negb].
    pose proof (list_sizer f t _ HT Hid HV ltac:(intro X; rewrite X in Hpk; destruct t; try discriminate Hpk; eauto) W0) as L.
    exact L.
  - clear Single. repeat (apply andb_prop in HS as [HS ?]).
    rename H into HV. rename H0 into HK. rename H1 into Ht. rename H2 into Ho. rename H3 into Hp. rename HS into Hr.
    apply negb_true_iff in Hp. destruct (f_tag f) eqn:Htg; try discriminate Ht. clear Ht.
    pose proof W as W0. apply wt_map_inv in W as (m & -> & Wm).
    unfold size_data. rewrite HT.
    replace (skipzero E (TMap kt vt) (VMap m)) with (Ok (match m with None => true | _ => false end)) by (destruct m; reflexivity).
    cbn [bind]. destruct m as [m|]; [|cbn [omap option_map map]; now apply sizes_pure].
    cbn [deref bind must].
    pose proof (map_sizer f kt vt _ HT Hid Hp Htg HK HV W0) as L. cbv beta iota in L.
    unfold IsList, IsMap. rewrite HT, Hr. cbn [andb negb].
    exact L.
  - cbn in HS. now rewrite andb_false_r in HS.
  - cbn in HS. now rewrite andb_false_r in HS.
Qed.

Lemma field_sizer : forall s f slot, wf_field s f ->
  (forall t, nth_error (sd_slots s) (f_slot f) = Some t -> wt t slot) ->
  sizes (size_field E rec f slot) (option_map wire_fields (field_den E recd recd f slot)).
Proof.
  intros s f slot (Hid & HS & Hslot) Wslot.
  assert (Nil : sizes (Ok 0) (Some (wire_fields []))) by now apply sizes_pure.
  rewrite size_field_eq.
  unfold oneof_data, field_den. destruct (f_oneof f) as [w|].
  - destruct Hslot as (alts & Hn & Ha). apply Wslot in Hn.
    apply wt_iface_inv in Hn as [->|[(w' & t' & -> & Hl)|(w' & x & t' & -> & Hl & Wx)]]; [exact Nil|exact Nil| |reflexivity].
    cbn [bind]. destruct (Nat.eqb w' w) eqn:Ew; [|exact Nil].
    apply Nat.eqb_eq in Ew. subst w'. rewrite Ha in Hl. injection Hl as <-.
    apply data_sizer; assumption.
  - apply Wslot in Hslot. cbn [bind]. apply data_sizer; assumption.
Qed.

Lemma fields_sizer : forall s fs slots,
  (forall f, In f fs -> wf_field s f) -> Forall2 (wtg E Q false) (sd_slots s) slots ->
  sizes (size_fields E rec fs slots) (option_map wire_fields (fields_den E recd recd fs slots)).
Proof.
  intros s fs slots Hf Hs. unfold fields_den.
  replace (option_map wire_fields _) with (option_map (@concat _) (omap (fun f => option_map wire_fields
     match nth_error slots (f_slot f) with Some slot => field_den E recd recd f slot | None => None end) fs)).
  2:{ rewrite omap_option_map. destruct (omap _ fs) as [l|]; [|reflexivity]. cbn. f_equal.
      induction l as [|a l IHl]; [reflexivity|]. cbn [map concat]. rewrite IHl.
      unfold wire_fields. now rewrite map_app, concat_app. }
  apply sizes_sum. intros f I. specialize (Hf f I).
  assert (exists t, nth_error (sd_slots s) (f_slot f) = Some t) as (t & Ht).
  { destruct Hf as (_ & _ & H). destruct (f_oneof f); [destruct H as (alts & H & _)|]; eauto. }
  destruct (Forall2_nth_error _ _ _ _ _ Hs Ht) as (slot & Hn & Wn). rewrite Hn.
  apply (field_sizer s); [assumption|]. intros t' Ht'. congruence.
Qed.
End Rec.

Hypothesis WF : wf_env E.

Lemma struct_size : forall d id p, optP (wt (TStruct id)) p ->
  sizes (SizeStruct E d id p) (option_map wire (msg E false d id p)).
Proof.
  induction d as [|d IH]; intros id p W; [reflexivity|].
  apply (wtp_base E Q WF) in W. cbn [msg SizeStruct].
  apply wt_struct_inv in W as (slots & unk & Hv & Ws & Wu).
  destruct (match p with Some v => v | None => sd_zero (E id) end); try discriminate Hv.
  injection Hv as -> ->.
  pose proof (fields_sizer (fun id base => SizeStruct E d id base) (msg E false d)
    IH (fun id p m H => msg_is_QMsg _ _ _ _ _ _ H)
    (E id) (sd_fields (E id)) slots (fun f I => wf_fields _ _ (WF id) f I) Ws) as FW.
  set (fd := fields_den E (msg E false d) (msg E false d) (sd_fields (E id)) slots) in *.
  set (u := match unk with Some u => u | None => [] end).
  replace (option_map wire _) with (oapp (option_map wire_fields fd) (Some u)) by (destruct fd; reflexivity).
  pose proof (sizes_seq _ (Ok (blen u)) _ (Some u) FW (sizes_pure _ _ eq_refl)) as S. cbn [bind] in S.
  replace (do n <- size_fields E (fun id base => SizeStruct E d id base) (sd_fields (E id)) slots;
    Ok (if sd_unknown (E id) then n + sizeUnknownFields unk else n))
    with (do x <- size_fields E (fun id base => SizeStruct E d id base) (sd_fields (E id)) slots; Ok (x + blen u)); [exact S|].
  destruct (size_fields _ _ _ _); try reflexivity. cbn [bind]. f_equal. unfold u, sizeUnknownFields.
  destruct unk as [bs|]; [destruct Wu as [-> _]; reflexivity|].
  destruct (sd_unknown (E id)); [reflexivity|]. cbn. lia.
Qed.
End Siz.
