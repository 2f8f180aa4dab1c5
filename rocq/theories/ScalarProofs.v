(** The scalar, list, packed and map writers of internal/wire against the message
    specification. *)
From Verif Require Import Base Wire WireSpec WireProofs WireConsume WireFacts Coder MapTables Value WireVal Desc MsgSpec ValFacts Writes Encoder.
From Coq Require Import Lia ZifyBool ZifyNat ZifyN Init.Byte.
Open Scope N_scope.

(** Values that occupy one record by themselves (no nested message). *)
Definition leaf_ok (tag : tagtype) (t : gotype) : bool :=
  match t with
  | TScalar k => scalar_ok tag k
  | TString | TBytes => tag_eqb tag TagBytes
  | _ => false
  end.
Definition leaf_den (tag : tagtype) (t : gotype) (v : val) : option pval :=
  value_den (fun _ _ => None) tag t v.

Lemma num_ok_lt : forall k n, num_ok k n -> n < 2^64.
Proof.
  intros k n [H _]. eapply N.lt_le_trans; [exact H|]. destruct k; vm_compute; discriminate.
Qed.

Ltac nok H :=
  let a := fresh "NL" in let b := fresh "NB" in
  destruct H as [a b]; cbn [skind_size] in a;
  try change (2 ^ (8 * 4)) with (2^32) in a; try change (2 ^ (8 * 8)) with (2^64) in a.

Lemma leaf_append : forall tag t, leaf_ok tag t = true ->
  match appendFuncs (getCoderType tag (kindOf t)) with
  | Some g => forall E Q v, wtg E Q false t v ->
      exists p, leaf_den tag t v = Some p /\ forall b, g b v = Ok (b ++ payload_of p)
  | None => False
  end.
Proof.
  intros tag t H. destruct t as [k| | | | | | | |]; try discriminate H.
  - destruct tag, k; try discriminate H; cbn [kindOf getCoderType appendFuncs]; intros E Q v W;
      apply wt_scalar_inv in W as (n & -> & N);
      (eexists; split; [reflexivity|]); intro b; cbn [scalar_den payload_of num_fn as_num bind];
      nok N; f_equal.
    all: try (apply AppendVarintI32_spec; assumption).
    all: try (apply varint_switch32_spec; assumption).
    all: try (apply varint_switch64_spec; assumption).
    all: try (apply bool_writer; auto).
    all: try (apply AppendZigZag32_spec; assumption).
    all: try (apply AppendZigZag64_spec; assumption).
    all: try (unfold UnsafeAppendFixed32; now rewrite fixed32_bytes_spec).
    all: try (unfold UnsafeAppendFixed64; now rewrite fixed64_bytes_spec).
  - destruct tag; try discriminate H. cbn [kindOf getCoderType appendFuncs]. intros E Q v W.
    apply wt_string_inv in W as (s & ->). eexists; split; [reflexivity|]. intro b.
    unfold bytes_fn, UnsafeAppendString. cbn [as_bytes bind payload_of]. rewrite AppendVarint_spec.
    unfold lendelim, blen. now rewrite app_assoc.
  - destruct tag; try discriminate H. cbn [kindOf getCoderType appendFuncs]. intros E Q v W.
    apply wt_bytes_inv in W as (s & ->). eexists; split; [reflexivity|]. intro b.
    unfold bytes_fn, UnsafeAppendString. cbn [as_bytes bind payload_of].
    destruct s as [s|]; cbn [bind]; rewrite AppendVarint_spec;
    unfold lendelim, blen; now rewrite app_assoc.
Qed.

(** ** Lists *)

Lemma mapM_Forall : forall {A B} (f : A -> res B) (P : A -> Prop) (h : A -> B),
  (forall x, P x -> f x = Ok (h x)) -> forall l, Forall P l -> mapM f l = Ok (map h l).
Proof.
  intros A B f P h H l F. induction F as [|x l Hx F IH]; [reflexivity|].
  cbn [mapM map]. rewrite (H _ Hx). cbn [bind]. rewrite IH. reflexivity.
Qed.

Lemma append_list_fold : forall {A} (g : bytes -> A -> bytes) (h : A -> bytes) tag0 l,
  (forall x, In x l -> forall b, g b x = b ++ h x) ->
  forall b, append_list g tag0 b l = b ++ concat (map (fun x => varint tag0 ++ h x) l).
Proof.
  intros A g h tag0 l. induction l as [|x l IH]; intros H b; cbn [append_list fold_left map concat].
  - now rewrite app_nil_r.
  - fold (append_list g tag0 (g (AppendVarintSmall b tag0) x) l). rewrite IH by (intros; apply H; now right).
    rewrite (H x) by now left. rewrite AppendVarintSmall_spec, <- !app_assoc. reflexivity.
Qed.

Definition getnum (v : val) : N := match v with VNum n => n | _ => 0 end.
Definition getbytes (v : val) : bytes := match v with VStr s => s | VBytes (Some s) => s | _ => [] end.

Lemma omap_some : forall {A B} (f : A -> option B) (h : A -> B) l,
  (forall x, In x l -> f x = Some (h x)) -> omap f l = Some (map h l).
Proof.
  intros A B f h l. induction l as [|x l IH]; intro H; [reflexivity|].
  cbn [omap map]. rewrite (H x) by now left. rewrite IH; [reflexivity|]. intros; apply H; now right.
Qed.

Lemma mapM_num : forall E Q k l, Forall (wtg E Q false (TScalar k)) l -> mapM as_num l = Ok (map getnum l).
Proof.
  intros E Q k l. apply mapM_Forall. intros x W. apply wt_scalar_inv in W as (n & -> & _). reflexivity.
Qed.
Lemma mapM_bytes : forall E Q t l, t = TString \/ t = TBytes -> Forall (wtg E Q false t) l ->
  mapM as_bytes l = Ok (map getbytes l).
Proof.
  intros E Q t l H. apply mapM_Forall. intros x W.
  destruct H as [-> | ->]; [apply wt_string_inv in W as (s & ->)|apply wt_bytes_inv in W as ([s|] & ->)]; reflexivity.
Qed.

Lemma omap_leaf_num : forall E Q tag k l, Forall (wtg E Q false (TScalar k)) l ->
  omap (leaf_den tag (TScalar k)) l = Some (map (fun v => scalar_den tag k (getnum v)) l).
Proof.
  intros E Q tag k l F. apply omap_some. intros x I. rewrite Forall_forall in F.
  apply F in I. apply wt_scalar_inv in I as (n & -> & _). reflexivity.
Qed.
Lemma omap_leaf_bytes : forall E Q tag t l, t = TString \/ t = TBytes -> Forall (wtg E Q false t) l ->
  omap (leaf_den tag t) l = Some (map (fun v => QStr (getbytes v)) l).
Proof.
  intros E Q tag t l H F. apply omap_some. intros x I. rewrite Forall_forall in F.
  apply F in I. destruct H as [-> | ->];
    [apply wt_string_inv in I as (s & ->)|apply wt_bytes_inv in I as ([s|] & ->)]; reflexivity.
Qed.

(** Every writer of appendListFuncs emits one tagged record per element. *)
Lemma leaf_list : forall tag t, leaf_ok tag t = true ->
  match appendListFuncs (getCoderType tag (kindOf t)) with
  | Some g => forall E Q e sp, Forall (wtg E Q false t) e ->
      exists l, omap (leaf_den tag t) e = Some l /\
        forall tg b, g b tg (VSlice e sp) = Ok (b ++ concat (map (fun p => varint tg ++ payload_of p) l))
  | None => False
  end.
Proof.
  intros tag t H. destruct t as [k| | | | | | | |]; try discriminate H.
  - destruct tag, k; try discriminate H; cbn [kindOf getCoderType appendListFuncs]; intros E Q e sp F;
      (eexists; split; [eapply omap_leaf_num; eassumption|]);
      intros tg b; unfold num_list; cbn [as_elems bind]; rewrite (mapM_num _ _ _ _ F); cbn [bind]; f_equal;
      rewrite map_map; cbn [scalar_den payload_of].
    all: match goal with HH : leaf_ok ?tg0 (TScalar ?k0) = true |- _ =>
      rewrite append_list_fold with (h := fun n => payload_of (scalar_den tg0 k0 n)) end;
      [rewrite map_map; cbn [scalar_den payload_of]; reflexivity|].
    all: intros x I b0; cbn [scalar_den payload_of]; apply in_map_iff in I as (v & <- & I);
      rewrite Forall_forall in F; apply F in I; apply wt_scalar_inv in I as (n & -> & N); cbn [getnum]; nok N.
    all: try (rewrite AppendVarint_spec, ?sext32_spec, ?zz32_spec, ?zz64_spec by assumption; reflexivity).
    all: try (now rewrite fixed32_bytes_spec).
    all: try (now rewrite fixed64_bytes_spec).
    all: rewrite varint_small by (specialize (NB eq_refl); lia); reflexivity.
  - destruct tag; try discriminate H. cbn [kindOf getCoderType appendListFuncs]. intros E Q e sp F.
    eexists; split; [eapply omap_leaf_bytes; eauto|].
    intros tg b. unfold bytes_list. cbn [as_elems bind]. match goal with HF : Forall (wtg ?E0 ?Q0 _ ?t0) _ |- _ => rewrite (mapM_bytes E0 Q0 t0) by auto end. cbn [bind]. f_equal.
    erewrite append_list_fold with (h := fun s => lendelim s);
      [rewrite !map_map; cbn [payload_of]; reflexivity|].
    intros x I b0. rewrite AppendVarint_spec. unfold lendelim, blen. now rewrite <- app_assoc.
  - destruct tag; try discriminate H. cbn [kindOf getCoderType appendListFuncs]. intros E Q e sp F.
    eexists; split; [eapply omap_leaf_bytes; eauto|].
    intros tg b. unfold bytes_list. cbn [as_elems bind]. match goal with HF : Forall (wtg ?E0 ?Q0 _ ?t0) _ |- _ => rewrite (mapM_bytes E0 Q0 t0) by auto end. cbn [bind]. f_equal.
    erewrite append_list_fold with (h := fun s => lendelim s);
      [rewrite !map_map; cbn [payload_of]; reflexivity|].
    intros x I b0. rewrite AppendVarint_spec. unfold lendelim, blen. now rewrite <- app_assoc.
Qed.

(** ** Packed lists *)
Lemma append_elems_fold : forall (g : bytes -> N -> bytes) (h : N -> bytes) l,
  (forall x, In x l -> forall b, g b x = b ++ h x) ->
  forall b, append_elems g b l = b ++ concat (map h l).
Proof.
  intros g h l. induction l as [|x l IH]; intros H b; cbn [append_elems fold_left map concat].
  - now rewrite app_nil_r.
  - fold (append_elems g (g b x) l). rewrite IH by (intros; apply H; now right).
    rewrite (H x) by now left. now rewrite <- app_assoc.
Qed.

Lemma concat_const_len : forall {A} (h : A -> bytes) k l, (forall x, length (h x) = k) ->
  length (concat (map h l)) = (k * length l)%nat.
Proof.
  intros A h k l H. induction l as [|x l IH]; [cbn; lia|]. cbn [map concat length]. rewrite app_length, H, IH. lia.
Qed.

Lemma packed_list : forall tag k, scalar_ok tag k = true ->
  match appendPackedFuncs (getCoderType tag (RScalar k)) with
  | Some g => forall E Q e sp, Forall (wtg E Q false (TScalar k)) e ->
      exists l, omap (leaf_den tag (TScalar k)) e = Some l /\
        writes (fun b => g b (VSlice e sp)) (Some (payload_of (QPacked l)))
  | None => False
  end.
Proof.
  intros tag k H.
  assert (LP : forall (conv : N -> N) E Q (e sp : list val), Forall (wtg E Q false (TScalar k)) e ->
     (forall n, num_ok k n -> varint (conv n) = payload_of (scalar_den tag k n)) ->
     writes (fun b => packed_lenpack conv b (VSlice e sp))
       (Some (payload_of (QPacked (map (fun v => scalar_den tag k (getnum v)) e))))).
  { intros conv E Q e sp F Hc. unfold packed_lenpack. cbn [as_elems bind].
    rewrite (mapM_num _ _ _ _ F). cbn [bind payload_of].
    pose (w := fun b => Ok (append_elems (fun b n => AppendVarint b (conv n)) b (map getnum e))).
    assert (W : writes w (Some (concat (map payload_of (map (fun v => scalar_den tag k (getnum v)) e))))).
    { apply writes_pure. intro b. unfold w. f_equal.
      erewrite append_elems_fold with (h := fun n => payload_of (scalar_den tag k n));
        [rewrite !map_map; reflexivity|].
      intros x I b0. apply in_map_iff in I as (v & <- & I). rewrite Forall_forall in F; apply F in I.
      apply wt_scalar_inv in I as (n & -> & N). cbn [getnum]. rewrite AppendVarint_spec, Hc by assumption. reflexivity. }
    apply writes_len in W. cbn [option_map] in W. eapply writes_ext; [|exact W]. intro b. reflexivity. }
  destruct tag, k; try discriminate H; cbn [getCoderType appendPackedFuncs]; intros E Q e sp F;
    (eexists; split; [eapply omap_leaf_num; eassumption|]).
  all: try (eapply LP; [eassumption|]; intros n N; cbn [scalar_den payload_of]; nok N;
            rewrite ?sext32_spec, ?zz32_spec, ?zz64_spec by assumption; reflexivity).
  all: apply writes_pure; intro b;
    unfold UnsafeAppendPackedFixed32, UnsafeAppendPackedFixed64, UnsafeAppendPackedBool; cbn [as_elems bind];
    rewrite (mapM_num _ _ _ _ F); cbn [bind]; f_equal.
  all: match goal with HH : scalar_ok ?tg0 ?k0 = true |- _ =>
    rewrite append_elems_fold with (h := fun n => payload_of (scalar_den tg0 k0 n)) end;
    [|intros x I b0; cbn [scalar_den payload_of];
      (rewrite fixed32_bytes_spec || rewrite fixed64_bytes_spec || idtac); try reflexivity].
  all: try (cbn [payload_of]; unfold lendelim; rewrite AppendVarint_spec, <- app_assoc; f_equal; f_equal;
    [f_equal; rewrite !map_map; cbn [scalar_den payload_of]; unfold blen; rewrite map_length;
     (rewrite (concat_const_len _ 4) by (intro; apply le_bytes_length); lia) ||
     (rewrite (concat_const_len _ 8) by (intro; apply le_bytes_length); lia)
    |rewrite !map_map; reflexivity]).
  - cbn [payload_of]; unfold lendelim; rewrite AppendVarint_spec, <- app_assoc; f_equal; f_equal.
    + f_equal. rewrite !map_map. cbn [scalar_den payload_of]. unfold blen. rewrite map_length. f_equal.
      clear sp. induction F as [|x e Wx F IH]; [reflexivity|]. cbn [map concat length].
      rewrite app_length, <- IH. apply wt_scalar_inv in Wx as (n & -> & N). nok N. cbn [getnum].
      rewrite varint_small by (specialize (NB eq_refl); lia). reflexivity.
    + rewrite !map_map. reflexivity.
  - apply in_map_iff in I as (v & <- & I). rewrite Forall_forall in F; apply F in I.
    apply wt_scalar_inv in I as (n & -> & N). nok N. cbn [getnum].
    rewrite varint_small by (specialize (NB eq_refl); lia). reflexivity.
Qed.

(** ** Map entries: the specialised writers *)

Definition enc_match (c : coder) (m : mapenc) : bool :=
  match c, m with
  | CVarintU32, MVarintU32 | CVarint64, MVarintU64 | CZigZag32, MZigZag32 | CZigZag64, MZigZag64
  | CFixed32, MFixed32 | CFixed64, MFixed64 | CBool, MBool | CBytes, MBytes | CString, MString => true
  | _, _ => false
  end.

Lemma coder_eqb_eq : forall a b, coder_eqb a b = true -> a = b.
Proof. intros [] []; cbn; congruence. Qed.

Lemma lookup2_in : forall {A} k v (l : list ((coder * coder) * A)) r,
  lookup2 k v l = Some r -> In ((k, v), r) l.
Proof.
  intros A k v l r. induction l as [|[[k' v'] r'] l IH]; cbn [lookup2]; [discriminate|].
  destruct (coder_eqb k k' && coder_eqb v v') eqn:C.
  - intros [= ->]. apply andb_prop in C as [C1 C2]. apply coder_eqb_eq in C1, C2. subst. now left.
  - intro H. right. auto.
Qed.

Lemma map_rows_encoder : forall ck cv mk mv, GetMapEncoderFunc ck cv = Some (mk, mv) ->
  enc_match ck mk = true /\ enc_match cv mv = true.
Proof.
  intros ck cv mk mv H. apply lookup2_in in H.
  assert (A : forallb (fun r => enc_match (fst (fst r)) (fst (snd r)) && enc_match (snd (fst r)) (snd (snd r)))
                mapEncoderFuncs = true) by (vm_compute; reflexivity).
  rewrite forallb_forall in A. apply A in H. now apply andb_prop in H.
Qed.

Lemma tag_kv_byte : forall num typ, (num = 1 \/ num = 2) -> typ < 8 ->
  [n2b (N.lor (N.shiftl num 3) typ)] = tag num typ.
Proof.
  intros num typ [-> | ->] H; unfold tag.
  - change (N.shiftl 1 3) with (1 * 2^3). rewrite N.lor_comm.
    change (1 * 2^3) with (N.shiftl 1 3). rewrite lor_disjoint by exact H.
    rewrite varint_small by lia. f_equal. f_equal. lia.
  - rewrite N.lor_comm. rewrite lor_disjoint by exact H.
    rewrite varint_small by lia. f_equal. f_equal. lia.
Qed.

Lemma mapenc_leaf : forall tag t m, leaf_ok tag t = true ->
  enc_match (getCoderType tag (kindOf t)) m = true ->
  forall E Q v, wtg E Q false t v ->
    exists p, leaf_den tag t v = Some p /\ wtype p = mapenc_wt m /\
      forall b, mapenc_payload m b v = Ok (b ++ payload_of p).
Proof.
  intros tag t m H M E Q v W. destruct t as [k| | | | | | | |]; try discriminate H.
  - apply wt_scalar_inv in W as (n & -> & N).
    destruct tag, k; try discriminate H; cbn [kindOf getCoderType] in M; destruct m; try discriminate M;
      (eexists; split; [reflexivity|]; split; [reflexivity|]); intro b; cbn [mapenc_payload as_num bind scalar_den payload_of];
      nok N; f_equal.
    all: try (rewrite AppendVarint_spec, ?zz32_spec, ?zz64_spec by assumption; reflexivity).
    all: try (now rewrite fixed32_bytes_spec).
    all: try (now rewrite fixed64_bytes_spec).
    f_equal. specialize (NB eq_refl). rewrite varint_small by lia.
    assert (n = 0 \/ n = 1) as [-> | ->] by lia; reflexivity.
  - destruct tag; try discriminate H. cbn [kindOf getCoderType] in M; destruct m; try discriminate M.
    apply wt_string_inv in W as (s & ->). eexists; split; [reflexivity|]; split; [reflexivity|].
    intro b. cbn [mapenc_payload as_bytes bind payload_of]. rewrite AppendVarint_spec. unfold lendelim, blen. now rewrite app_assoc.
  - destruct tag; try discriminate H. cbn [kindOf getCoderType] in M; destruct m; try discriminate M.
    apply wt_bytes_inv in W as (s & ->). eexists; split; [reflexivity|]; split; [reflexivity|].
    intro b. cbn [mapenc_payload]. destruct s as [s|]; cbn [as_bytes bind payload_of]; rewrite AppendVarint_spec; unfold lendelim, blen; now rewrite app_assoc.
Qed.
