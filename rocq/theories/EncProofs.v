(** The encoder against the message specification. *)
From Verif Require Import Base Wire WireSpec WireProofs WireConsume WireFacts Coder MapTables Value WireVal Desc MsgSpec ValFacts Writes Encoder ScalarProofs.
From Coq Require Import Lia ZifyBool ZifyNat ZifyN Init.Byte.
Open Scope N_scope.

Lemma wireTypes_lt : forall t, wireTypes t < 8.
Proof. destruct t; reflexivity. Qed.

Lemma leaf_wtype : forall tag t v p, leaf_ok tag t = true -> leaf_den tag t v = Some p -> wtype p = wireTypes tag.
Proof.
  intros tag t v p H D. destruct t as [k| | | | | | | |]; try discriminate H; destruct v; try discriminate D;
    injection D as <-.
  - destruct tag, k; try discriminate H; reflexivity.
  - destruct tag; try discriminate H; reflexivity.
  - destruct tag; try discriminate H; reflexivity.
Qed.

Lemma value_den_leaf : forall rec tag t v, leaf_ok tag t = true -> value_den rec tag t v = leaf_den tag t v.
Proof. intros rec tag t v H. destruct t; try discriminate H; destruct v; reflexivity. Qed.

Lemma WireTag_small : forall f b, (1 <= f_id f < 2^31)%Z ->
  AppendVarintSmall b (WireTag f) = b ++ tag (field_num f) (if f_packed f then 2 else wireTypes (f_tag f)).
Proof.
  intros f b H. unfold WireTag. rewrite AppendVarintSmall_spec. unfold tag, field_num.
  destruct (f_packed f).
  - rewrite EncodeTag_spec; [reflexivity|lia|reflexivity].
  - rewrite EncodeTag_spec; [reflexivity|lia|apply wireTypes_lt].
Qed.
Lemma WireTag_varint : forall f, (1 <= f_id f < 2^31)%Z ->
  varint (WireTag f) = tag (field_num f) (if f_packed f then 2 else wireTypes (f_tag f)).
Proof.
  intros f H. pose proof (WireTag_small f [] H) as W. rewrite AppendVarintSmall_spec in W. exact W.
Qed.

Lemma omap_option_map : forall {A B C} (f : A -> option B) (h : B -> C) l,
  omap (fun x => option_map h (f x)) l = option_map (map h) (omap f l).
Proof.
  intros A B C f h l. induction l as [|x l IH]; [reflexivity|]. cbn [omap]. rewrite IH.
  destruct (f x); [|reflexivity]. destruct (omap f l); reflexivity.
Qed.
Lemma omap_ext_in : forall {A B} (f g : A -> option B) l, (forall x, In x l -> f x = g x) -> omap f l = omap g l.
Proof.
  intros A B f g l H. induction l as [|x l IH]; [reflexivity|]. cbn [omap]. rewrite (H x) by now left.
  rewrite IH; [reflexivity|]. intros; apply H; now right.
Qed.

(** What a message pointer or message value denotes, as passed to AppendStruct. *)
Lemma struct_elem_den : forall E Q t v, (exists id, t = TStruct id \/ t = TPtr (TStruct id)) -> wtg E Q false t v ->
  exists id p, struct_elem t v = Ok (id, p) /\ optP (wtg E Q false (TStruct id)) p /\
    forall rec tag, value_den rec tag t v = rec id p.
Proof.
  intros E Q t v (id & [-> | ->]) W.
  - exists id, (Some v). split; [reflexivity|]. split; [exact W|]. intros. destruct v; reflexivity.
  - apply wt_ptr_inv in W as (p & -> & W). exists id, p. split; [reflexivity|]. split; [assumption|]. reflexivity.
Qed.

Lemma elem_ok_cases : forall tag t, elem_ok tag t = true ->
  leaf_ok tag t = true \/ (tag = TagBytes /\ exists id, t = TStruct id \/ t = TPtr (TStruct id)).
Proof.
  intros tag t H. destruct t as [k| | |id|t| | | |]; cbn in *; try discriminate H; auto.
  - right. destruct tag; try discriminate H. eauto.
  - destruct t; try discriminate H. right. destruct tag; try discriminate H. eauto.
Qed.
Lemma key_ok_leaf : forall tag t, key_ok tag t = true -> leaf_ok tag t = true.
Proof. intros tag t H. destruct t; cbn in *; try discriminate H; auto. now apply andb_prop in H. Qed.

Lemma leaf_RealKind : forall tag t, leaf_ok tag t = true -> RealKind t = kindOf t.
Proof. intros tag t H. destruct t; try discriminate H; reflexivity. Qed.

Section Enc.
Variable E : env.
Variable Q : nat -> bytes -> Prop.
Notation wt := (wtg E Q false).

(** The part of append_field after the oneof test. *)
Definition append_data (rec : nat -> bytes -> option val -> res bytes) (f : fdesc) (b : bytes) (v : val) : res bytes :=
  do skip <- skipzero E (f_T f) v;
  if skip then Ok b
  else
    do (t, p) <- deref (f_T f) v;
    match f_rep f, GetAppendFunc (fieldCoder f) (f_packed f) with
    | false, Some g => do x <- must p; g (AppendVarintSmall b (WireTag f)) x
    | _, AppendFunc =>
        if IsList f then
          if f_packed f then
            match AppendFunc with
            | Some g => do x <- must p; g (AppendVarintSmall b (WireTag f)) x
            | None => Panic
            end
          else
            match appendListFuncs (fieldCoder f) with
            | Some g => do x <- must p; g b (WireTag f) x
            | None => do x <- must p; AppendListField rec f b x
            end
        else if IsMap f then
          match getAppendMapFunc f with
          | Some row => do x <- must p; AppendMap row b (WireTag f) x
          | None => do x <- must p; AppendMapField rec f b x
          end
        else
          match t with
          | TStruct id => rec id (AppendVarintSmall b (WireTag f)) p
          | _ => Panic
          end
    end.
Lemma append_field_eq : forall rec f b slot, append_field E rec f b slot =
  do data <- oneof_data f slot; match data with None => Ok b | Some v => append_data rec f b v end.
Proof. reflexivity. Qed.

Section Rec.
Variable rec : nat -> bytes -> option val -> res bytes.
Variable recd : nat -> option val -> option pval.
Hypothesis Hrec : forall id p, optP (wt (TStruct id)) p ->
  writes (fun b => rec id b p) (option_map payload_of (recd id p)).
Hypothesis Hrecm : forall id p m, recd id p = Some m -> exists fs u, m = QMsg fs u.

Lemma recd_wtype : forall id p m, recd id p = Some m -> wtype m = 2.
Proof. intros id p m H. apply Hrecm in H as (fs & u & ->). reflexivity. Qed.

Lemma value_wtype : forall tag t v p, elem_ok tag t = true -> wt t v ->
  value_den recd tag t v = Some p -> wtype p = wireTypes tag.
Proof.
  intros tag t v p H W D. apply elem_ok_cases in H as [H|(-> & H)].
  - rewrite value_den_leaf in D by assumption. eapply leaf_wtype; eassumption.
  - destruct (struct_elem_den _ _ _ _ H W) as (id & q & _ & _ & Hd). rewrite Hd in D.
    now apply recd_wtype in D.
Qed.

(** Writers of a single element or map value. *)
Definition elem_writer (tag : tagtype) (t : gotype) (g : AppendFunc) : Prop :=
  forall v, wt t v -> writes (fun b => g b v) (option_map payload_of (value_den recd tag t v)).

Lemma leaf_writer : forall tag t, leaf_ok tag t = true ->
  exists g, appendFuncs (getCoderType tag (kindOf t)) = Some g /\ elem_writer tag t g.
Proof.
  intros tag t H. pose proof (leaf_append tag t H) as L.
  destruct (appendFuncs _) as [g|]; [|destruct L]. exists g. split; [reflexivity|].
  intros v W. destruct (L E Q v W) as (p & Hp & Hg). rewrite value_den_leaf, Hp by assumption.
  now apply writes_pure.
Qed.

Lemma struct_writer : forall t, (exists id, t = TStruct id \/ t = TPtr (TStruct id)) ->
  elem_writer TagBytes t (fun b v => do (id, base) <- struct_elem t v; rec id b base).
Proof.
  intros t H v W. destruct (struct_elem_den _ _ _ _ H W) as (id & p & Hs & Wp & Hd).
  rewrite Hd. eapply writes_ext; [|apply (Hrec id p Wp)]. intro b. now rewrite Hs.
Qed.

Lemma string_writer : elem_writer TagBytes TString (bytes_fn (fun b k => AppendVarint b (blen k) ++ k)).
Proof.
  intros v W. apply wt_string_inv in W as (s & ->). apply writes_pure. intro b.
  unfold bytes_fn. cbn [as_bytes bind payload_of].
  rewrite AppendVarint_spec. unfold lendelim, blen. now rewrite app_assoc.
Qed.

(** A tagged value. *)
Lemma tagged : forall g num tg t v tagb, elem_ok tg t = true -> elem_writer tg t g -> wt t v ->
  tagb = tag num (wireTypes tg) ->
  writes (fun b => g (b ++ tagb) v)
    (option_map (fun p => record_of (num, p)) (value_den recd tg t v)).
Proof.
  intros g num tg t v tagb Hok Hg W ->.
  replace (option_map (fun p => record_of (num, p)) (value_den recd tg t v))
    with (oapp (Some (tag num (wireTypes tg))) (option_map payload_of (value_den recd tg t v))).
  - apply (writes_after (fun b => g b v)); [now apply Hg|reflexivity].
  - destruct (value_den recd tg t v) as [p|] eqn:D; [|reflexivity]. cbn.
    unfold record_of. cbn [fst snd]. now rewrite (value_wtype _ _ _ _ Hok W D).
Qed.

(** ** Maps *)
Lemma entry_writer : forall f kt vt keyw valw tagb,
  key_ok (f_ktag f) kt = true -> elem_ok (f_vtag f) vt = true ->
  tagb = tag (field_num f) 2 ->
  forall k v, 
  (writes (fun b => keyw b k) (option_map (fun p => record_of (1, p)) (value_den recd (f_ktag f) kt k))) ->
  (writes (fun b => valw b v) (option_map (fun p => record_of (2, p)) (value_den recd (f_vtag f) vt v))) ->
  writes (fun b => 
      let b0 := LenReserve (b ++ tagb) in
      do b1 <- keyw b0 k; do b2 <- valw b1 v; Ok (LenPack b2 (length b2 - length b0)))
    (option_map (fun p => record_of (field_num f, p)) (entry_den recd recd f kt vt (k, v))).
Proof.
  intros f kt vt keyw valw tagb HK HV -> k v Wk Wv.
  pose proof (writes_after _ (tag (field_num f) 2) _ (writes_len _ _ (writes_seq _ _ _ _ Wk Wv))
    (fun b => b ++ tag (field_num f) 2) (fun b => eq_refl)) as W.
  eapply writes_ext; [|replace (option_map _ _) with
    (oapp (Some (tag (field_num f) 2)) (option_map lendelim (oapp
       (option_map (fun p => record_of (1, p)) (value_den recd (f_ktag f) kt k))
       (option_map (fun p => record_of (2, p)) (value_den recd (f_vtag f) vt v))))); [exact W|]].
  - intro b. cbv beta zeta. destruct (keyw _ _); reflexivity.
  - unfold entry_den. cbn [fst snd].
    destruct (value_den recd (f_ktag f) kt k) as [kp|]; [|reflexivity].
    destruct (value_den recd (f_vtag f) vt v) as [vp|]; [|reflexivity].
    cbn [option_map oapp]. f_equal. unfold record_of. cbn [fst snd wtype payload_of map concat].
    now rewrite !app_nil_r.
Qed.

Definition entries_den (f : fdesc) kt vt m :=
  option_map wire_fields (option_map (map (fun p => (field_num f, p))) (omap (entry_den recd recd f kt vt) m)).

Lemma entries_den_eq : forall f kt vt m, entries_den f kt vt m =
  option_map (@concat _) (omap (fun kv => option_map (fun p => record_of (field_num f, p)) (entry_den recd recd f kt vt kv)) m).
Proof.
  intros. rewrite omap_option_map. unfold entries_den. destruct (omap _ m) as [l|]; [|reflexivity].
  cbn. unfold wire_fields. now rewrite map_map.
Qed.

Lemma map_loop_writer : forall f kt vt keyfn valfn m,
  (1 <= f_id f < 2^31)%Z -> f_packed f = false -> f_tag f = TagBytes ->
  key_ok (f_ktag f) kt = true -> elem_ok (f_vtag f) vt = true ->
  elem_writer (f_ktag f) kt keyfn -> elem_writer (f_vtag f) vt valfn ->
  Forall (fun kv => wt kt (fst kv) /\ wt vt (snd kv)) m ->
  writes (fun b => append_map_loop f keyfn valfn b m) (entries_den f kt vt m).
Proof.
  intros f kt vt keyfn valfn m Hid Hp Ht HK HV Wk Wv F. rewrite entries_den_eq.
  apply (writes_fold (append_map_loop f keyfn valfn) (fun b kv => append_map_entry f keyfn valfn b (fst kv) (snd kv))).
  - reflexivity.
  - intros b [k v] l. reflexivity.
  - intros [k v] I. rewrite Forall_forall in F. destruct (F _ I) as [Tk Tv]. cbn [fst snd] in *.
    eapply writes_ext; [|apply (entry_writer f kt vt (fun b k => keyfn (AppendKeyTag b (wireTypes (f_ktag f))) k)
       (fun b v => valfn (AppendValTag b (wireTypes (f_vtag f))) v) _ HK HV eq_refl k v)].
    + intro b. unfold append_map_entry. rewrite WireTag_small, Hp, Ht by assumption. reflexivity.
    + unfold AppendKeyTag. apply tagged; auto.
      * apply key_ok_leaf in HK. destruct kt; try discriminate HK; exact HK.
      * apply tag_kv_byte; [auto|apply wireTypes_lt].
    + unfold AppendValTag. apply tagged; auto. apply tag_kv_byte; [auto|apply wireTypes_lt].
Qed.

Lemma mapenc_wt_lt : forall m, mapenc_wt m < 8.
Proof. destruct m; reflexivity. Qed.

Lemma row_writer : forall num tg t m, leaf_ok tg t = true -> (num = 1 \/ num = 2) ->
  enc_match (getCoderType tg (kindOf t)) m = true -> forall v, wt t v ->
  writes (fun b => mapenc_payload m (b ++ [n2b (N.lor (N.shiftl num 3) (mapenc_wt m))]) v)
    (option_map (fun p => record_of (num, p)) (value_den recd tg t v)).
Proof.
  intros num tg t m H Hn M v W. destruct (mapenc_leaf tg t m H M E Q v W) as (p & Hp & Hw & Hb).
  rewrite value_den_leaf, Hp by assumption. cbn [option_map]. apply writes_pure. intro b.
  rewrite Hb, tag_kv_byte by (auto; apply mapenc_wt_lt). unfold record_of. cbn [fst snd].
  now rewrite Hw, app_assoc.
Qed.

Lemma enc_match_leaf : forall tg t m, elem_ok tg t = true -> enc_match (getCoderType tg (kindOf t)) m = true ->
  leaf_ok tg t = true.
Proof.
  intros tg t m H M. apply elem_ok_cases in H as [H|(-> & id & [-> | ->])]; [exact H| |];
    destruct m; discriminate M.
Qed.

Lemma map_writer : forall f kt vt v, f_T f = TMap kt vt ->
  (1 <= f_id f < 2^31)%Z -> f_packed f = false -> f_tag f = TagBytes ->
  key_ok (f_ktag f) kt = true -> elem_ok (f_vtag f) vt = true -> wt (TMap kt vt) v ->
  writes (fun b => match getAppendMapFunc f with
                   | Some row => AppendMap row b (WireTag f) v
                   | None => AppendMapField rec f b v
                   end)
    (entries_den f kt vt (match v with VMap (Some m) => m | _ => [] end)).
Proof.
  intros f kt vt v HT Hid Hp Ht HK HV W.
  apply wt_map_inv in W as (mo & -> & Wm).
  set (m := match mo with Some m => m | None => [] end).
  assert (F : Forall (fun kv => wt kt (fst kv) /\ wt vt (snd kv)) m).
  { destruct mo; [apply Wm|constructor]. }
  assert (AE : as_entries (VMap mo) = Ok m) by (destruct mo; reflexivity).
  replace (match mo with Some m => m | None => [] end) with m by reflexivity.
  pose proof (key_ok_leaf _ _ HK) as HKl.
  destruct (getAppendMapFunc f) as [[mk mv]|] eqn:R.
  - unfold getAppendMapFunc, mapKV in R. rewrite HT in R. cbn [fst snd] in R.
    apply map_rows_encoder in R as [R1 R2]. unfold AppendMap. rewrite AE. cbn [bind].
    rewrite entries_den_eq.
    pose proof (writes_fold (fun b m => append_map_entries (mk, mv) b (WireTag f) m)
      (fun b kv => let b0 := LenReserve (b ++ tag (field_num f) 2) in
         do b1 <- appendMapKey mk b0 (fst kv); do b2 <- appendMapValue mv b1 (snd kv);
         Ok (LenPack b2 (length b2 - length b0)))) as WF.
    apply WF; clear WF.
    + reflexivity.
    + intros b [k v] l. cbn [append_map_entries fst snd]. rewrite WireTag_small, Hp, Ht by assumption.
      cbn [wireTypes]. cbv zeta. change WBytes with 2.
      destruct (appendMapKey _ _ _); try reflexivity. cbn [bind].
      destruct (appendMapValue _ _ _); reflexivity.
    + intros [k v] I. rewrite Forall_forall in F. destruct (F _ I) as [Tk Tv]. cbn [fst snd] in *.
      apply (entry_writer f kt vt (appendMapKey mk) (appendMapValue mv) _ HK HV eq_refl k v).
      * apply row_writer; auto.
      * apply row_writer; auto. eapply enc_match_leaf; eassumption.
  - destruct (leaf_writer _ _ HKl) as (gk & Gk & Wk).
    assert (KF : GetAppendFunc (keyCoder f) false = Some gk).
    { unfold keyCoder. rewrite HT. cbn [GetAppendFunc]. now rewrite (leaf_RealKind _ _ HKl). }
    unfold AppendMapField, AppendMapGeneric. rewrite HT, KF. cbv zeta. cbn [opt_fn]. rewrite AE. cbn [bind].
    apply elem_ok_cases in HV as HV'. destruct HV' as [HVl|(Hvt & HVs)].
    + destruct (leaf_writer _ _ HVl) as (gv & Gv & Wv).
      assert (VF : GetAppendFunc (valCoder f) false = Some gv).
      { unfold valCoder. rewrite HT. cbn [GetAppendFunc]. now rewrite (leaf_RealKind _ _ HVl). }
      rewrite VF. now apply map_loop_writer.
    + assert (VF : GetAppendFunc (valCoder f) false = None).
      { unfold valCoder. rewrite HT, Hvt. destruct HVs as (id & [-> | ->]); reflexivity. }
      rewrite VF.
      assert (G : writes (fun b => append_map_loop f gk (append_struct_value rec vt) b m)
                   (entries_den f kt vt m)).
      { apply map_loop_writer; auto. rewrite Hvt. now apply struct_writer. }
      destruct (IsPointer vt); [|exact G].
      destruct kt as [[]| | | | | | | |]; cbn [kindOf]; try exact G; try discriminate HK.
      apply map_loop_writer; auto.
      * cbn in HK. destruct (f_ktag f); try discriminate HK. apply string_writer.
      * rewrite Hvt. now apply struct_writer.
Qed.

(** ** Lists *)
Lemma list_writer : forall f t v, f_T f = TSlice t -> (1 <= f_id f < 2^31)%Z -> f_packed f = false ->
  elem_ok (f_tag f) t = true -> wt (TSlice t) v ->
  writes (fun b => match appendListFuncs (fieldCoder f) with
                   | Some g => g b (WireTag f) v
                   | None => AppendListField rec f b v
                   end)
    (option_map (fun l => wire_fields (map (fun p => (field_num f, p)) l))
      (omap (value_den recd (f_tag f) t) (match v with VSlice e _ => e | _ => [] end))).
Proof.
  intros f t v HT Hid Hp HV W. apply wt_slice_inv in W as (e & sp & -> & We & _).
  apply elem_ok_cases in HV as HV'. destruct HV' as [HVl|(Hvt & HVs)].
  - pose proof (leaf_list _ _ HVl) as L.
    replace (fieldCoder f) with (getCoderType (f_tag f) (kindOf t)).
    2:{ unfold fieldCoder. rewrite HT. cbn [RealKind]. now rewrite (leaf_RealKind _ _ HVl). }
    destruct (appendListFuncs _) as [g|]; [|destruct L].
    destruct (L E Q e sp We) as (l & Hl & Hg).
    rewrite (omap_ext_in _ (leaf_den (f_tag f) t)) by (intros; now apply value_den_leaf).
    rewrite Hl. cbn [option_map]. apply writes_pure. intro b. rewrite Hg. f_equal. f_equal.
    unfold wire_fields. rewrite map_map. f_equal. 
    assert (A : forall p, In p l -> wtype p = wireTypes (f_tag f)).
    { clear Hg. revert l Hl. induction e as [|x e IH]; cbn [omap]; intros l Hl p I.
      - injection Hl as <-. destruct I.
      - destruct (leaf_den (f_tag f) t x) as [px|] eqn:D; [|discriminate].
        destruct (omap _ e) as [l'|]; [|discriminate]. injection Hl as <-. destruct I as [<-|I].
        + eapply leaf_wtype; eassumption.
        + eapply IH; [now inversion We|reflexivity|exact I]. }
    apply map_ext_in. intros p I. unfold record_of. cbn [fst snd].
    rewrite WireTag_varint, Hp, (A p I) by assumption. reflexivity.
  - replace (appendListFuncs (fieldCoder f)) with (@None AppendRepeatedFunc).
    2:{ unfold fieldCoder. rewrite HT, Hvt. destruct HVs as (id & [-> | ->]); reflexivity. }
    unfold AppendListField. rewrite HT. cbn [as_elems bind].
    replace (option_map _ (omap _ e)) with
      (option_map (@concat _) (omap (fun x => option_map (fun p => record_of (field_num f, p)) (value_den recd (f_tag f) t x)) e)).
    2:{ rewrite omap_option_map. destruct (omap _ e); [|reflexivity]. cbn. unfold wire_fields. now rewrite map_map. }
    apply (writes_fold (append_struct_elems rec t (WireTag f))
      (fun b v => do (id, base) <- struct_elem t v; rec id (AppendVarintSmall b (WireTag f)) base)).
    + reflexivity.
    + intros b x l. cbn [append_struct_elems]. destruct (struct_elem t x) as [[id base]| | |]; reflexivity.
    + intros x I. rewrite Forall_forall in We. pose proof (We x I) as Wx.
      eapply writes_ext; [|apply (tagged _ (field_num f) (f_tag f) t x (tag (field_num f) (wireTypes (f_tag f))) HV
         (ltac:(rewrite Hvt; apply struct_writer; exact HVs)) Wx eq_refl)].
      intro b. cbv beta. rewrite WireTag_small, Hp by assumption. reflexivity.
Qed.

(** ** One field *)
Lemma skipzero_single : forall t v, (match t with TScalar _ | TString | TBytes | TStruct _ => True | _ => False end) ->
  wt t v -> skipzero E t v = Ok (omitted E t v).
Proof.
  intros t v H W. destruct t as [k| | |id| | | | |]; try destruct H.
  - apply wt_scalar_inv in W as (n & -> & _). destruct k; reflexivity.
  - apply wt_string_inv in W as ([|] & ->); reflexivity.
  - apply wt_bytes_inv in W as ([[|]|] & ->); reflexivity.
  - unfold skipzero, omitted. cbn [tsize SliceLike]. cbv zeta.
    destruct ((sd_size (E id) =? 8) || (sd_size (E id) =? 4) || (sd_size (E id) =? 1)); [|reflexivity].
    cbn [andb]. reflexivity.
Qed.

Lemma value_ok_elem : forall tag t, value_ok tag t = true -> elem_ok tag t = true /\
  (leaf_ok tag t = true \/ exists id, t = TStruct id /\ tag = TagBytes).
Proof.
  intros tag t H. destruct t; cbn in *; try discriminate H; auto.
  split; [assumption|]. right. destruct tag; try discriminate H. eauto.
Qed.

Lemma single_writer : forall f t v, RealKind (f_T f) = RealKind t -> (1 <= f_id f < 2^31)%Z ->
  f_packed f = false -> f_rep f = false -> (IsMap f = false) ->
  value_ok (f_tag f) t = true -> wt t v ->
  writes (fun b => match f_rep f, GetAppendFunc (fieldCoder f) (f_packed f) with
        | false, Some g => do x <- must (Some v); g (AppendVarintSmall b (WireTag f)) x
        | _, AppendFunc =>
            if IsList f then
              if f_packed f then
                match AppendFunc with
                | Some g => do x <- must (Some v); g (AppendVarintSmall b (WireTag f)) x
                | None => Panic
                end
              else
                match appendListFuncs (fieldCoder f) with
                | Some g => do x <- must (Some v); g b (WireTag f) x
                | None => do x <- must (Some v); AppendListField rec f b x
                end
            else if IsMap f then
              match getAppendMapFunc f with
              | Some row => do x <- must (Some v); AppendMap row b (WireTag f) x
              | None => do x <- must (Some v); AppendMapField rec f b x
              end
            else
              match t with
              | TStruct id => rec id (AppendVarintSmall b (WireTag f)) (Some v)
              | _ => Panic
              end
        end)
    (option_map (fun p => record_of (field_num f, p)) (value_den recd (f_tag f) t v)).
Proof.
  intros f t v HR Hid Hp Hr Hm HV W. unfold IsList. rewrite Hr, Hp, Hm. cbn [GetAppendFunc andb].
  destruct (value_ok_elem _ _ HV) as [Ho [Hl|(id & -> & Ht)]].
  - destruct (leaf_writer _ _ Hl) as (g & Hg & Wg).
    unfold fieldCoder. rewrite HR, (leaf_RealKind _ _ Hl), Hg. cbn [must bind].
    eapply writes_ext; [|apply (tagged g (field_num f) _ _ _ _ Ho Wg W eq_refl)].
    intro b. cbv beta. now rewrite WireTag_small, Hp.
  - unfold fieldCoder. rewrite HR, Ht. cbn [RealKind kindOf getCoderType appendFuncs].
    eapply writes_ext; [|apply (tagged (fun b v => do (id, base) <- struct_elem (TStruct id) v; rec id b base)
       (field_num f) TagBytes (TStruct id) v _ eq_refl (struct_writer (TStruct id) (ex_intro _ id (or_introl eq_refl))) W eq_refl)].
    intro b. cbv beta. rewrite WireTag_small, Hp, Ht by assumption. reflexivity.
Qed.

Lemma wire_single : forall num (o : option pval),
  option_map (fun p => record_of (num, p)) o = option_map wire_fields (option_map (fun p => [(num, p)]) o).
Proof. intros num [p|]; [|reflexivity]. cbn. unfold wire_fields. cbn. now rewrite app_nil_r. Qed.

Lemma data_writer : forall f v, (1 <= f_id f < 2^31)%Z -> supported f = true -> wt (f_T f) v ->
  writes (fun b => append_data rec f b v) (option_map wire_fields (data_den E recd recd f v)).
Proof.
  intros f v Hid HS W. unfold supported in HS.
  assert (Single : forall t, f_T f = t -> (match t with TScalar _ | TString | TBytes | TStruct _ => True | _ => False end) ->
    negb (f_rep f) && negb (f_packed f) && value_ok (f_tag f) t = true ->
    writes (fun b => append_data rec f b v)
      (option_map wire_fields (if omitted E t v then Some [] else
         option_map (fun p => [(field_num f, p)]) (value_den recd (f_tag f) t v)))).
  { intros t HT Hk HS'. rewrite HT in W.
    apply andb_prop in HS' as [HS' HV]. apply andb_prop in HS' as [Hr Hp].
    apply negb_true_iff in Hr, Hp.
    unfold append_data. rewrite HT, (skipzero_single _ _ Hk W). cbn [bind].
    destruct (omitted E t v); [apply writes_pure; intro; now rewrite app_nil_r|].
    rewrite <- wire_single.
    assert (Hm : IsMap f = false) by (unfold IsMap; rewrite HT; destruct t; try reflexivity; destruct Hk).
    assert (HR : RealKind (f_T f) = RealKind t) by now rewrite HT.
    replace (deref t v) with (Ok (t, Some v)) by (destruct t; try reflexivity; destruct Hk).
    cbn [bind].
    apply single_writer; assumption. }
  unfold data_den. destruct (f_T f) as [k| | |id|t|t|kt vt|alts|] eqn:HT; try discriminate HS.
  - specialize (Single _ eq_refl I HS). destruct v; exact Single.
  - specialize (Single _ eq_refl I HS). destruct v; exact Single.
  - specialize (Single _ eq_refl I HS). destruct v; exact Single.
  - specialize (Single _ eq_refl I HS). destruct v; exact Single.
  - clear Single. apply andb_prop in HS as [HS HV]. apply andb_prop in HS as [Hr Hp].
    apply negb_true_iff in Hr, Hp.
    apply wt_ptr_inv in W as (p & -> & Wp). unfold append_data. rewrite HT. cbn [skipzero tsize N.eqb].
    replace (skipzero E (TPtr t) (VPtr p)) with (Ok (match p with None => true | _ => false end)) by (destruct p; reflexivity).
    cbn [bind]. destruct p as [x|].
    + cbn [deref bind]. rewrite <- wire_single.
      assert (Hm : IsMap f = false) by (unfold IsMap; rewrite HT; reflexivity).
      assert (HR : RealKind (f_T f) = RealKind t) by now rewrite HT.
      apply single_writer; assumption.
    + apply writes_pure. intro; now rewrite app_nil_r.
  - clear Single. repeat (apply andb_prop in HS as [HS ?]).
    rename H into Hpk. rename H0 into HV. rename H1 into Ho. rename HS into Hr.
    pose proof W as W0. apply wt_slice_inv in W as (e & sp & -> & We & Wsp).
    unfold append_data. rewrite HT.
    replace (skipzero E (TSlice t) (VSlice e sp)) with (Ok (Nat.eqb (length e) 0)) by reflexivity.
    cbn [bind]. destruct e as [|e0 e']; [cbn [length Nat.eqb omap]; destruct (f_packed f); apply writes_pure; intro; now rewrite app_nil_r|].
    set (e := e0 :: e') in *. cbn [length Nat.eqb e deref bind]. fold e.
    unfold IsList, IsMap. rewrite HT, Hr. cbn [andb negb].
    destruct (f_packed f) eqn:Hp.
    + destruct t as [k| | | | | | | |]; try discriminate Hpk. cbn in HV.
      pose proof (packed_list _ _ HV) as L. cbn [GetAppendFunc]. unfold fieldCoder. rewrite HT. cbn [RealKind kindOf].
      destruct (appendPackedFuncs _) as [g|]; [|destruct L]. cbn [must bind].
      destruct (L E Q e sp We) as (l & Hl & Hg).
      rewrite (omap_ext_in _ (leaf_den (f_tag f) (TScalar k))) by (intros; now apply value_den_leaf).
      rewrite Hl. cbn [option_map].
      destruct l as [|p0 l'].
      { exfalso. unfold e in Hl. cbn [omap] in Hl. destruct (leaf_den _ _ e0); [|discriminate].
        destruct (omap _ e'); discriminate. }
      set (l := p0 :: l') in *.
      replace (Some (wire_fields [(field_num f, QPacked l)])) with (oapp (Some (tag (field_num f) 2)) (Some (payload_of (QPacked l)))).
      2:{ cbn [oapp]. unfold wire_fields. cbn [map concat]. unfold record_of. cbn [fst snd wtype]. now rewrite app_nil_r. }
      eapply writes_ext; [|apply (writes_after _ _ _ Hg (fun b => b ++ tag (field_num f) 2)); reflexivity].
      intro b. cbv beta. now rewrite WireTag_small, Hp.
    + cbn [GetAppendFunc].
      pose proof (list_writer f t (VSlice e sp) HT Hid Hp HV W0) as L. cbv beta iota in L.
      replace (option_map wire_fields _) with (option_map (fun l => wire_fields (map (fun p => (field_num f, p)) l))
        (omap (value_den recd (f_tag f) t) e)) by (destruct (omap _ e); reflexivity).
      exact L.
  - clear Single. repeat (apply andb_prop in HS as [HS ?]).
    rename H into HV. rename H0 into HK. rename H1 into Ht. rename H2 into Ho. rename H3 into Hp. rename HS into Hr.
    apply negb_true_iff in Hp. destruct (f_tag f) eqn:Htg; try discriminate Ht. clear Ht.
    pose proof W as W0. apply wt_map_inv in W as (m & -> & Wm).
    unfold append_data. rewrite HT.
    replace (skipzero E (TMap kt vt) (VMap m)) with (Ok (match m with None => true | _ => false end)) by (destruct m; reflexivity).
    cbn [bind]. destruct m as [m|]; [|cbn [omap option_map map]; apply writes_pure; intro; now rewrite app_nil_r].
    cbn [deref bind must].
    pose proof (map_writer f kt vt _ HT Hid Hp Htg HK HV W0) as L. cbv beta iota in L.
    unfold IsList, IsMap. rewrite HT, Hr, Hp. cbn [andb negb GetAppendFunc].
    exact L.
  - cbn in HS. now rewrite andb_false_r in HS.
  - cbn in HS. now rewrite andb_false_r in HS.
Qed.

Lemma field_writer : forall s f slot, wf_field s f ->
  (forall t, nth_error (sd_slots s) (f_slot f) = Some t -> wt t slot) ->
  writes (fun b => append_field E rec f b slot) (option_map wire_fields (field_den E recd recd f slot)).
Proof.
  intros s f slot (Hid & HS & Hslot) Wslot.
  assert (Nil : writes (fun b => Ok b) (Some (wire_fields []))) by (apply writes_pure; intro; now rewrite app_nil_r).
  eapply writes_ext; [intro b; symmetry; apply append_field_eq|].
  unfold oneof_data, field_den. destruct (f_oneof f) as [w|].
  - destruct Hslot as (alts & Hn & Ha). apply Wslot in Hn.
    apply wt_iface_inv in Hn as [->|[(w' & t' & -> & Hl)|(w' & x & t' & -> & Hl & Wx)]]; [exact Nil|exact Nil| |reflexivity].
    cbn [bind]. destruct (Nat.eqb w' w) eqn:Ew; [|exact Nil].
    apply Nat.eqb_eq in Ew. subst w'. rewrite Ha in Hl. injection Hl as <-.
    apply data_writer; assumption.
  - apply Wslot in Hslot. cbn [bind]. apply data_writer; assumption.
Qed.

Lemma fields_writer : forall s fs slots,
  (forall f, In f fs -> wf_field s f) -> Forall2 (wtg E Q false) (sd_slots s) slots ->
  writes (fun b => append_fields E rec fs b slots) (option_map wire_fields (fields_den E recd recd fs slots)).
Proof.
  intros s fs slots Hf Hs. unfold fields_den.
  replace (option_map wire_fields _) with (option_map (@concat _) (omap (fun f => option_map wire_fields
     match nth_error slots (f_slot f) with Some slot => field_den E recd recd f slot | None => None end) fs)).
  2:{ rewrite omap_option_map. destruct (omap _ fs) as [l|]; [|reflexivity]. cbn. f_equal.
      induction l as [|a l IHl]; [reflexivity|]. cbn [map concat]. rewrite IHl.
      unfold wire_fields. now rewrite map_app, concat_app. }
  apply (writes_fold (fun b fs => append_fields E rec fs b slots)
    (fun b f => match nth_error slots (f_slot f) with Some slot => append_field E rec f b slot | None => Panic end)).
  - reflexivity.
  - intros b f l. cbn [append_fields]. destruct (nth_error slots (f_slot f)); reflexivity.
  - intros f I. specialize (Hf f I).
    assert (exists t, nth_error (sd_slots s) (f_slot f) = Some t) as (t & Ht).
    { destruct Hf as (_ & _ & H). destruct (f_oneof f); [destruct H as (alts & H & _)|]; eauto. }
    destruct (Forall2_nth_error _ _ _ _ _ Hs Ht) as (slot & Hn & Wn). rewrite Hn.
    apply (field_writer s); [assumption|]. intros t' Ht'. congruence.
Qed.
End Rec.

Lemma msg_is_QMsg : forall two d id p m, msg E two d id p = Some m -> exists fs u, m = QMsg fs u.
Proof.
  intros two [|d] id p m H; cbn [msg] in H; [discriminate|].
  destruct (match p with Some v => v | None => sd_zero (E id) end); try discriminate H.
  destruct (fields_den _ _ _ _ _); [|discriminate]. injection H as <-. eauto.
Qed.

Hypothesis WF : wf_env E.

Lemma struct_body : forall d id p, optP (wt (TStruct id)) p ->
  writes (fun b => AppendStruct E d id b p false) (option_map wire (msg E false d id p)) /\
  writes (fun b => AppendStruct E d id b p true) (option_map payload_of (msg E false d id p)).
Proof.
  induction d as [|d IH]; intros id p W; [split; intro b; reflexivity|].
  apply (wtp_base E Q WF) in W. cbn [msg AppendStruct].
  apply wt_struct_inv in W as (slots & unk & Hv & Ws & Wu).
  destruct (match p with Some v => v | None => sd_zero (E id) end); try discriminate Hv.
  injection Hv as -> ->.
  pose proof (fields_writer (fun id b base => AppendStruct E d id b base true) (msg E false d)
    (fun id p W => proj2 (IH id p W)) (fun id p m H => msg_is_QMsg _ _ _ _ _ H)
    (E id) (sd_fields (E id)) slots (fun f I => wf_fields _ _ (WF id) f I) Ws) as FW.
  set (fd := fields_den E (msg E false d) (msg E false d) (sd_fields (E id)) slots) in *.
  set (u := match unk with Some u => u | None => [] end).
  assert (BW : writes (fun b => do b1 <- append_fields E (fun id b base => AppendStruct E d id b base true) (sd_fields (E id)) b slots;
      Ok (if sd_unknown (E id) then appendUnknownFields b1 unk else b1)) (oapp (option_map wire_fields fd) (Some u))).
  { apply writes_seq; [exact FW|]. apply writes_pure. intro b. unfold u.
    destruct unk as [bs|]; [destruct Wu as [-> _]; reflexivity|].
    destruct (sd_unknown (E id)); cbn; now rewrite app_nil_r. }
  split.
  - cbv zeta. replace (option_map wire _) with (oapp (option_map wire_fields fd) (Some u)) by (destruct fd; reflexivity).
    exact BW.
  - cbv zeta. replace (option_map payload_of _) with (option_map lendelim (oapp (option_map wire_fields fd) (Some u))).
    + eapply writes_ext; [|apply writes_len; exact BW]. intro b. cbv beta. destruct (append_fields _ _ _ _ _); reflexivity.
    + destruct fd as [fs|]; [|reflexivity]. cbn [option_map oapp payload_of]. f_equal. unfold wire_fields.
      f_equal. f_equal. f_equal. apply map_ext. intros [n p']. reflexivity.
Qed.
End Enc.
