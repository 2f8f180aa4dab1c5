(** Varints in all positions; unbounded nesting through maps. *)
From Verif Require Import Base Wire WireSpec WireProofs WireConsume WireFacts Coder MapTables Value WireVal Desc MsgSpec ValFacts ScalarProofs Writes Encoder EncProofs EncFacts Decoder DescProofs DecSpec DecScalar DecMap DecProofs DecFacts DecFacts2 DecFacts3 Sample SampleDec.
From Coq Require Import Lia ZifyBool ZifyNat ZifyN Init.Byte.
Open Scope N_scope.

Section Facts.
Variable E : env.
Hypothesis WF : wf_env E.

Lemma position_merges : forall k p x f typ d slot slot', supported f = true ->
  (forall raw, reads_scalar raw TagVarint k 0 p x) -> in_position E k p x f typ d slot slot' ->
  typ < 8 /\ merges E 1000 f typ d slot slot'.
Proof.
  intros k p x f typ d slot slot' SP R H. destruct H.
  - split; [lia|]. apply m_single; [assumption| |rewrite H0, H1; constructor; apply R].
    unfold supported in SP. rewrite H0 in SP. now destruct (f_rep f).
  - split; [lia|]. apply m_single; [assumption| |rewrite H0, H1; constructor; constructor; apply R].
    unfold supported in SP. rewrite H0 in SP. now destruct (f_rep f).
  - split; [lia|]. apply m_oneof; [assumption|]. rewrite H0, H1. constructor. apply R.
  - split; [lia|]. destruct (next_elem E (TScalar k) e sp) as [y r] eqn:N. cbn [snd].
    eapply m_elem; [|exact H|left; lia|exact N|rewrite H0; constructor; apply R].
    unfold supported in SP. rewrite H in SP. destruct (f_oneof f); [now rewrite andb_false_r in SP|reflexivity].
  - split; [lia|]. replace p with (concat [p]) in * by (cbn; apply app_nil_r). change [VNum x] with (map VNum [x]).
    replace (concat [concat [p]]) with (concat [p]) by (cbn; rewrite !app_nil_r; reflexivity).
    eapply m_packed; try eassumption.
    + unfold supported in SP. rewrite H in SP. destruct (f_oneof f); [now rewrite andb_false_r in SP|reflexivity].
    + rewrite H1. constructor; [|constructor]. specialize (R true). cbn in R |- *. rewrite app_nil_r in R. exact R.
  - split; [lia|]. pose proof (m_entry E 1000 f (TScalar k) vt l (n2b 8) 0 p c2 t2 p2 [] m VUninit (VNum x) v) as M.
    cbv zeta in M. rewrite !app_nil_r in M. apply M; try assumption; try reflexivity.
    + unfold supported in SP. rewrite H in SP. destruct (f_oneof f); [now rewrite !andb_false_r in SP|reflexivity].
    + rewrite H0. constructor. apply R.
  - split; [lia|]. pose proof (m_entry E 1000 f kt (TScalar k) l c1 t1 p1 (n2b 16) 0 p [] m VUninit key (VNum x)) as M.
    cbv zeta in M. rewrite !app_nil_r in M. apply M; try assumption; try reflexivity.
    + unfold supported in SP. rewrite H in SP. destruct (f_oneof f); [now rewrite !andb_false_r in SP|reflexivity].
    + rewrite H0. constructor. apply R.
Qed.

Lemma position_decodes : forall P id s u f k p x typ d slot slot' t, wt E (TStruct id) (VStruct s u) ->
  In f (sd_fields (E id)) -> nth_error s (f_slot f) = Some slot -> valid_varint t (8 * field_num f + typ) ->
  (forall raw, reads_scalar raw TagVarint k 0 p x) -> in_position E k p x f typ d slot slot' ->
  exists u', Unmarshal E P (t ++ d) (APtr id (Some (VStruct s u))) = DOk (VStruct (upd_nth (f_slot f) slot' s) u') tt.
Proof.
  intros P id s u f k p x typ d slot slot' t W HI NS VT R H.
  destruct (position_merges k p x f typ d slot slot' (wf_supported E WF id f HI) R H) as [TY M].
  eapply (one_record E WF); eassumption.
Qed.
Lemma int_positions : forall P id s u f k p n typ d slot slot' t, wt E (TStruct id) (VStruct s u) ->
  In f (sd_fields (E id)) -> nth_error s (f_slot f) = Some slot -> valid_varint t (8 * field_num f + typ) ->
  In k [Int32; Uint32; Int64; Uint64] -> valid_varint p n ->
  in_position E k p (match k with Int32 | Uint32 => n mod 2^32 | _ => n end) f typ d slot slot' ->
  exists u', Unmarshal E P (t ++ d) (APtr id (Some (VStruct s u))) = DOk (VStruct (upd_nth (f_slot f) slot' s) u') tt.
Proof.
  intros P id s u f k p n typ d slot slot' t W HI NS VT HK VP H. eapply position_decodes; try eassumption.
  intro raw. pose proof (rd_varint raw TagVarint k p n) as R.
  assert (X : reads_scalar raw TagVarint k 0 p (varint_store TagVarint k n)).
  { apply R; [now left|assumption|]. right. destruct k; try discriminate. cbn in HK. intuition discriminate. }
  cbn [In] in HK. destruct HK as [<-|[<-|[<-|[<-|[]]]]]; exact X.
Qed.
Lemma bool_positions : forall P id s u f x typ d slot slot' t, wt E (TStruct id) (VStruct s u) ->
  In f (sd_fields (E id)) -> nth_error s (f_slot f) = Some slot -> valid_varint t (8 * field_num f + typ) ->
  x < 2 -> in_position E Bool [n2b x] x f typ d slot slot' ->
  exists u', Unmarshal E P (t ++ d) (APtr id (Some (VStruct s u))) = DOk (VStruct (upd_nth (f_slot f) slot' s) u') tt.
Proof.
  intros P id s u f x typ d slot slot' t W HI NS VT HX H. eapply position_decodes; try eassumption.
  assert (x = 0 \/ x = 1) as [->| ->] by lia; intros [].
  - now apply (rd_byte true TagVarint Bool x00).
  - apply (rd_varint false TagVarint Bool [x00] 0); [now left|vv|now left].
  - now apply (rd_byte true TagVarint Bool x01).
  - apply (rd_varint false TagVarint Bool [x01] 1); [now left|vv|now left].
Qed.
End Facts.

(** ** Nesting through maps is not limited *)
(** An entry 0 -> message [b] of field 2 of Tree, and [n] messages nested like this. *)
Definition in_map (b : bytes) : bytes := tag 2 2 ++ lendelim ([x08; x00; x12] ++ lendelim b).
Fixpoint mapb (n : nat) : bytes := match n with O => [] | S n => in_map (mapb n) end.
Definition treeb (n : nat) : bytes := tag 1 2 ++ lendelim (mapb n).

Lemma tag_one : forall n t, 8 * n + t < 128 -> tag n t = [n2b (8 * n + t)].
Proof. intros n t H. unfold tag. apply varint_small. exact H. Qed.
Lemma lendelim_bound : forall b, blen b < 2^62 -> blen (lendelim b) <= blen b + 10.
Proof.
  intros b H. unfold lendelim, blen in *. rewrite app_length. pose proof (varint_len10 (N.of_nat (length b))). lia.
Qed.
Lemma in_map_bound : forall b, blen b < 2^61 -> blen (in_map b) <= blen b + 24.
Proof.
  intros b H. unfold in_map. rewrite tag_one by lia. unfold blen. rewrite app_length.
  pose proof (lendelim_bound b) as L1. pose proof (lendelim_bound ([x08; x00; x12] ++ lendelim b)) as L2.
  unfold blen in *. rewrite app_length in L2. cbn [length] in *. lia.
Qed.
Lemma mapb_bound : forall n, N.of_nat n < 2^50 -> blen (mapb n) <= 24 * N.of_nat n.
Proof.
  induction n as [|n IH]; intro H; [cbn; lia|]. cbn [mapb]. rewrite in_map_bound; lia.
Qed.

Definition tree0 : val := sd_zero tree_desc.
Lemma in_map_decodes : forall D b v', (D <> 0)%Z -> (D - 2 <> 0)%Z -> blen b < 2^61 ->
  decodes sample (D - 2) 4 b tree0 v' -> exists v1, decodes sample D 4 (in_map b) tree0 v1.
Proof.
  intros D b v' ND ND2 LB H. unfold tree0. cbn [sd_zero tree_desc].
  set (f := mkF 2 1 TagBytes true false TagVarint TagBytes (TMap (TScalar Int32) (TPtr (TStruct 4))) None).
  eexists. constructor; [assumption|]. cbn [sample tree_desc sd_unknown].
  assert (X : in_map b = tag 2 2 ++ (lendelim ([x08; x00; x12] ++ lendelim b)) ++ []) by (rewrite app_nil_r; reflexivity).
  rewrite X. eapply rs_known with (f := f) (typ := 2); [cbn; auto|apply varint_valid; reflexivity|lia|reflexivity| |constructor].
  unfold lendelim at 1.
  pose proof (m_entry sample D f (TScalar Int32) (TPtr (TStruct 4)) (varint (blen ([x08; x00; x12] ++ lendelim b))) x08 0 [x00]
     x12 2 (lendelim b) [] None VUninit (VNum 0) (VPtr (Some v'))) as M.
  cbv zeta in M. rewrite !app_nil_r in M. apply M; try reflexivity.
  - apply varint_valid. pose proof (lendelim_bound b ltac:(lia)). unfold blen in *. rewrite !app_length. cbn [length]. lia.
  - constructor. apply (rd_varint _ TagVarint Int32 [x00] 0); [now left|vv|right; discriminate].
  - constructor. unfold lendelim. constructor; [apply varint_valid; lia|]. replace (D - 1 - 1)%Z with (D - 2)%Z by lia.
    exact H.
Qed.
Lemma mapb_decodes : forall n D, Z.odd D = true -> N.of_nat n < 2^50 ->
  exists v', decodes sample D 4 (mapb n) tree0 v'.
Proof.
  induction n as [|n IH]; intros D OD H.
  - eexists. constructor; [intros ->; discriminate|constructor].
  - destruct (IH (D - 2)%Z) as (v' & X); [rewrite Z.odd_sub, OD; reflexivity|lia|].
    apply (in_map_decodes D (mapb n) v'); try assumption.
    + intros ->; discriminate.
    + intro Z. replace D with 2%Z in OD by lia. discriminate.
    + pose proof (mapb_bound n). lia.
Qed.
Lemma sub_wf : forall num l s, 1 <= num < 2^31 -> l = varint (blen s) -> blen s < 2^64 -> wf_wrec (mkW num 2 (tag num 2) (l ++ s)).
Proof.
  intros num l s HN -> LS. split; [apply varint_valid; cbn [w_num w_typ]; lia|]. split; [cbn; lia|]. split; [exact HN|].
  exists O. eapply PBytes; [apply varint_valid; exact LS|reflexivity].
Qed.
Lemma mapb_nests : forall n, N.of_nat n < 2^50 -> nests sample true (S n) 4 (mapb n).
Proof.
  induction n as [|n IH]; intro H; [constructor|]. cbn [mapb].
  set (f := mkF 2 1 TagBytes true false TagVarint TagBytes (TMap (TScalar Int32) (TPtr (TStruct 4))) None).
  set (e := [x08; x00; x12] ++ lendelim (mapb n)).
  pose proof (mapb_bound n ltac:(lia)) as L1. pose proof (lendelim_bound (mapb n) ltac:(lia)) as L2.
  assert (L3 : blen e < 2^64) by (unfold e, blen in *; rewrite app_length; cbn [length]; lia).
  eapply (ns_map sample true (S n) 4 _ [mkW 2 2 (tag 2 2) (varint (blen e) ++ e)] _ f (varint (blen e)) _ _ x08 [x00] x12
    (varint (blen (mapb n))) (mapb n) [] 4%nat).
  - split; [constructor; [apply sub_wf; [lia|reflexivity|assumption]|constructor]|].
    cbn. unfold w_raw. cbn. rewrite app_nil_r. reflexivity.
  - now left.
  - cbn. auto.
  - reflexivity.
  - reflexivity.
  - cbn [w_data]. unfold e, lendelim. rewrite app_nil_r. reflexivity.
  - rewrite app_nil_r. apply varint_valid. exact L3.
  - constructor 1 with (v := 0). vv.
  - reflexivity.
  - apply varint_valid. lia.
  - reflexivity.
  - reflexivity.
  - reflexivity.
  - apply IH. lia.
Qed.
Lemma unbounded_nesting : forall n P, N.of_nat n < 2^50 ->
  exists b v', nests sample true (S n) 4 b /\ Unmarshal sample P b (APtr 4 (Some tree0)) = DOk v' tt.
Proof.
  intros [|n] P H.
  - exists [], tree0. split; [constructor|]. apply (Unmarshal_decodes sample sample_wf); [unfold wt; cbn; tauto|].
    apply dec_struct; [discriminate|]. constructor.
  - exists (treeb n). destruct (mapb_decodes n 999 eq_refl ltac:(lia)) as (v1 & X).
    pose proof (mapb_bound n ltac:(lia)) as L1.
    set (f := mkF 1 0 TagBytes false false TagNone TagNone (TPtr (TStruct 4)) None).
    destruct (one_record sample sample_wf P 4 [VPtr None; VMap None; VSlice [] []] None f 2 (tag 1 2) (lendelim (mapb n)) (VPtr None) (VPtr (Some v1)))
      as (u' & U).
    + unfold wt. cbn. tauto.
    + cbn. auto.
    + reflexivity.
    + lia.
    + apply varint_valid. reflexivity.
    + apply m_single; [reflexivity|reflexivity|]. constructor. unfold lendelim. constructor; [apply varint_valid; lia|exact X].
    + eexists. split; [|exact U].
      eapply (ns_field sample true (S n) 4 _ [mkW 1 2 (tag 1 2) (varint (blen (mapb n)) ++ mapb n)] _ f (varint (blen (mapb n))) (mapb n) 4%nat);
        [|now left|cbn; auto|reflexivity|reflexivity|reflexivity|apply varint_valid; lia|now left|apply mapb_nests; lia].
      split; [constructor; [apply sub_wf; [lia|reflexivity|lia]|constructor]|].
      cbn. unfold w_raw. cbn. rewrite app_nil_r. reflexivity.
Qed.

(** A packed record holding the elements [ns]. *)
Lemma packed_field : forall E, wf_env E -> forall P id s u f k slot t l ns, wt E (TStruct id) (VStruct s u) ->
  In f (sd_fields (E id)) -> f_T f = TSlice (TScalar k) -> f_packed f = true ->
  nth_error s (f_slot f) = Some slot -> valid_varint t (8 * field_num f + 2) -> Forall (num_ok k) ns ->
  let data := concat (map (fun n => payload_of (scalar_den (f_tag f) k n)) ns) in
  valid_varint l (blen data) ->
  exists u', Unmarshal E P (t ++ l ++ data) (APtr id (Some (VStruct s u))) =
    DOk (VStruct (upd_nth (f_slot f) (VSlice (map VNum ns) []) s) u') tt.
Proof.
  intros E WF P id s u f k slot t l ns W HI HT HP NS VT OKN data VL.
  pose proof (wf_supported E WF id f HI) as SP.
  assert (SO : scalar_ok (f_tag f) k = true /\ f_oneof f = None).
  { unfold supported in SP. rewrite HT, HP in SP. cbn in SP. destruct (f_oneof f); [now rewrite andb_false_r in SP|].
    split; [|reflexivity]. now repeat (apply andb_prop in SP as [SP ?]). }
  destruct SO as [SO OO]. eapply (one_record E WF); try eassumption; [lia|]. apply (m_packed E 1000 f k); try assumption.
  clear - OKN SO. induction OKN as [|n ns H _ IH]; [constructor|]. constructor; [|exact IH].
  pose proof (scalar_reads true (f_tag f) k n SO H) as R.
  assert (X : wtype (scalar_den (f_tag f) k n) = tag_wtype (f_tag f)).
  { destruct (f_tag f), k; try discriminate SO; reflexivity. }
  rewrite X in R. exact R.
Qed.

(** [S n] messages nested through the field next of Inner. *)
Fixpoint innerb (n : nat) : bytes := match n with O => [] | S n => tag 2 2 ++ lendelim (innerb n) end.
Lemma innerb_bound : forall n, N.of_nat n < 2^50 -> blen (innerb n) <= 11 * N.of_nat n.
Proof.
  induction n as [|n IH]; intro H; [cbn; lia|]. cbn [innerb]. rewrite tag_one by lia. unfold blen. rewrite app_length.
  pose proof (lendelim_bound (innerb n)) as L1. unfold blen in *. cbn [length]. lia.
Qed.
Lemma innerb_nests : forall n, N.of_nat n < 2^50 -> nests sample false (S n) 1 (innerb n).
Proof.
  induction n as [|n IH]; intro H; [constructor|]. cbn [innerb].
  pose proof (innerb_bound n ltac:(lia)) as L1.
  set (f := mkF 2 1 TagBytes false false TagNone TagNone (TPtr (TStruct 1)) None).
  eapply (ns_field sample false (S n) 1 _ [mkW 2 2 (tag 2 2) (varint (blen (innerb n)) ++ innerb n)] _ f (varint (blen (innerb n))) (innerb n) 1%nat).
  - split; [constructor; [apply sub_wf; [lia|reflexivity|lia]|constructor]|]. cbn. unfold w_raw. cbn. rewrite app_nil_r. reflexivity.
  - now left.
  - cbn. auto.
  - reflexivity.
  - reflexivity.
  - reflexivity.
  - apply varint_valid. lia.
  - left. reflexivity.
  - apply IH. lia.
Qed.
