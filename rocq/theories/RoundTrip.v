(** Unmarshal inverts Marshal. *)
From Verif Require Import Base Wire WireSpec WireProofs WireConsume WireFacts Coder MapTables Value WireVal Desc MsgSpec ValFacts ScalarProofs Writes Encoder EncProofs EncFacts Decoder DescProofs DecSpec DecScalar DecMap DecProofs DecFacts DecFacts2 DecFacts3 RoundSpec.
From Coq Require Import Lia ZifyBool ZifyNat ZifyN Sorting.Sorted Sorting.Permutation.
Open Scope N_scope.

Lemma value_ok_strip : forall tag t, value_ok tag t = true -> forall t', t <> TPtr t'.
Proof. intros tag [] H t'; try discriminate. Qed.

Lemma omap_cons_inv : forall {A B} (f : A -> option B) a l r, omap f (a :: l) = Some r ->
  exists b rb, f a = Some b /\ omap f l = Some rb /\ r = b :: rb.
Proof.
  intros A B f a l r H. cbn [omap] in H. destruct (f a) as [b|]; [|discriminate]. destruct (omap f l) as [rb|]; [|discriminate].
  injection H as <-. eauto.
Qed.

Section RT.
Variable E : env.
Hypothesis WF : wf_env E.
Notation Q := (unknown_ok E).
Notation wtq := (wtg E Q false).

(** ** Zero memory denotes the same as the zero value *)
Lemma raw_zero_same : forall v t, raw_zero v = true -> wtq t v ->
  match t with
  | TStruct id => same_value E t v (sd_zero (E id))
  | TScalar _ | TString | TBytes => same_value E t v (zero_of E t)
  | TPtr _ => v = VPtr None
  | TSlice _ => v = VSlice [] []
  | TMap _ _ => v = VMap None
  | TIface _ => v = VIface None
  | TOther => True
  end.
Proof.
  induction v as [|n|s|s|p H|e sp H H0|m H|l unk H|i H] using val_ind'; intros t RZ W; cbn [raw_zero] in RZ.
  - discriminate.
  - apply N.eqb_eq in RZ as ->. destruct t; try destruct W; constructor.
  - destruct s; [|discriminate]. cbn in W. subst t. constructor.
  - destruct s; [discriminate|]. cbn in W. subst t. constructor. reflexivity.
  - destruct p; [discriminate|]. destruct t; try destruct W. reflexivity.
  - destruct e; [|discriminate]. destruct sp; [|discriminate]. destruct t; try (destruct W; fail). reflexivity.
  - destruct m; [discriminate|]. destruct t; try destruct W. reflexivity.
  - destruct t as [| | |id| | | | |]; try (destruct W; fail). apply andb_prop in RZ as [RZ RU]. destruct unk; [discriminate|].
    apply wtg_struct in W as [W _]. rewrite (wf_zero _ _ (WF id)). constructor; [reflexivity|]. intros f HI.
    destruct (wf_fields _ _ (WF id) f HI) as (NB & SP & FT).
    assert (X : forall t, nth_error (sd_slots (E id)) (f_slot f) = Some t -> exists slot, nth_error l (f_slot f) = Some slot /\
      raw_zero slot = true /\ wtq t slot /\ nth_error (map (zero_of E) (sd_slots (E id))) (f_slot f) = Some (zero_of E t) /\
      (forall t, raw_zero slot = true -> wtq t slot -> match t with
        | TStruct id => same_value E t slot (sd_zero (E id))
        | TScalar _ | TString | TBytes => same_value E t slot (zero_of E t)
        | TPtr _ => slot = VPtr None
        | TSlice _ => slot = VSlice [] []
        | TMap _ _ => slot = VMap None
        | TIface _ => slot = VIface None
        | TOther => True end)).
    { intros t HN. destruct (Forall2_nth_error _ _ _ _ _ W HN) as (slot & NS & WS). exists slot. split; [assumption|].
      apply nth_error_In in NS as NI. rewrite Forall_forall in H. rewrite forallb_forall in RZ.
      split; [now apply RZ|]. split; [assumption|]. split; [now apply map_nth_error|]. exact (H slot NI). }
    destruct (f_oneof f) as [w|] eqn:O.
    + destruct FT as (alts & HN & _). destruct (X _ HN) as (slot & NS & R & WS & NZ & IH). exists slot, (VIface None).
      split; [assumption|]. split; [assumption|]. rewrite (IH _ R WS). apply (sf_other E f w); try assumption; intros [o X']; discriminate X'.
    + destruct (X _ FT) as (slot & NS & R & WS & NZ & IH). exists slot, (zero_of E (f_T f)). split; [assumption|]. split; [assumption|].
      apply sf_plain; [assumption|]. specialize (IH _ R WS). 
      destruct (f_T f) as [k| | |id'|t|t|kt vt|alts|] eqn:T; cbn [zero_of] in *.
      1-4: apply sd_single; rewrite T; [discriminate|exact IH].
      * rewrite IH. now apply (sd_unset E f t).
      * rewrite IH. apply (sd_list E f t); [assumption|constructor].
      * rewrite IH. apply (sd_map E f kt vt None []); [assumption|constructor|constructor].
      * unfold supported in SP. rewrite T in SP. now rewrite andb_false_r in SP.
      * unfold supported in SP. rewrite T in SP. now rewrite andb_false_r in SP.
  - destruct i; [discriminate|]. destruct t; try destruct W. reflexivity.
Qed.

(** ** Values *)
Section Step.
Variable D : Z.
(** The messages nested below. *)
Variable rec : nat -> option val -> option pval.
Hypothesis REC : forall id p m, optP (wtq (TStruct id)) p -> rec id p = Some m -> blen (wire m) < 2^63 ->
  (exists fs u, m = QMsg fs u) /\
  exists v', decodes E (D - 1) id (wire m) (sd_zero (E id)) v' /\
    same_value E (TStruct id) (match p with Some v => v | None => sd_zero (E id) end) v'.

Lemma lendelim_valid : forall s, blen (lendelim s) < 2^63 -> valid_varint (varint (blen s)) (blen s) /\ blen s < 2^63.
Proof.
  intros s H. unfold lendelim, blen in *. rewrite app_length in H. split; [apply varint_valid; lia|lia].
Qed.

Lemma value_rt : forall raw tag t v p x, elem_ok tag t = true -> wtq t v -> value_den rec tag t v = Some p ->
  blen (payload_of p) < 2^63 -> (forall id, t = TStruct id -> x = sd_zero (E id)) ->
  exists v', reads E D raw tag t (wtype p) (payload_of p) x v' /\ same_value E t v v'.
Proof.
  intros raw tag t v p x OK W DEN SM XZ.
  assert (ST : forall id o m, optP (wtq (TStruct id)) o -> rec id o = Some m -> blen (payload_of m) < 2^63 ->
    exists v', reads E D raw tag (TStruct id) (wtype m) (payload_of m) (sd_zero (E id)) v' /\
      same_value E (TStruct id) (match o with Some v => v | None => sd_zero (E id) end) v').
  { intros id o m WO RM SMM. destruct m as [| | | | |fs u]; try (exfalso; destruct (REC id o _ WO RM) as [(fs & u & X) _]; [reflexivity|discriminate X]).
    rewrite wire_fields_payload in SMM |- *. cbn [wtype]. apply lendelim_valid in SMM as [VL SMM].
    destruct (REC id o _ WO RM) as [_ (v' & DC & SV)]; [exact SMM|]. exists v'. split; [|exact SV].
    unfold lendelim. constructor; [exact VL|exact DC]. }
  destruct t as [k| | |id|[| | |id| | | | |]| | | |]; cbn [elem_ok value_ok] in OK; try discriminate OK; cbn [value_den] in DEN.
  - apply wt_scalar_inv in W as (n & -> & NO). injection DEN as <-. exists (VNum n). split; [|constructor].
    constructor. now apply scalar_reads.
  - apply wt_string_inv in W as (s & ->). injection DEN as <-. exists (VStr s). split; [|constructor].
    cbn [payload_of wtype] in *. apply lendelim_valid in SM as [VL _]. unfold lendelim. now constructor.
  - apply wt_bytes_inv in W as (s & ->). injection DEN as <-. cbn [payload_of wtype] in *.
    apply lendelim_valid in SM as [VL _]. unfold lendelim. eexists. split; [constructor; exact VL|constructor]. now destruct s.
  - rewrite (XZ id eq_refl). apply (ST id (Some v)) in DEN; assumption.
  - apply wt_ptr_inv in W as (o & -> & WO). destruct (ST id o p WO DEN SM) as (v' & R & SV). exists (VPtr (Some v')). split.
    + constructor. exact R.
    + destruct o; now constructor.
Qed.

(** ** The records of one field *)
Inductive msteps (f : fdesc) : list (N * pval) -> val -> val -> Prop :=
| ms_nil z : msteps f [] z z
| ms_cons p rs z z1 z2 : merges E D f (wtype p) (payload_of p) z z1 -> msteps f rs z1 z2 ->
    msteps f ((field_num f, p) :: rs) z z2.
Notation small := (Forall (fun r : N * pval => blen (payload_of (snd r)) < 2^63)).

Lemma unset_struct : forall t id, t = TStruct id -> unset E t = sd_zero (E id).
Proof. intros t id ->. reflexivity. Qed.

Lemma list_rt : forall f t e l acc sp, f_oneof f = None -> f_T f = TSlice t -> f_packed f = false -> elem_ok (f_tag f) t = true ->
  Forall (wtq t) e -> omap (value_den rec (f_tag f) t) e = Some l -> small (map (fun p => (field_num f, p)) l) ->
  Forall (eq (unset E t)) sp ->
  exists e' sp', msteps f (map (fun p => (field_num f, p)) l) (VSlice acc sp) (VSlice (acc ++ e') sp') /\
    Forall2 (same_value E t) e e'.
Proof.
  intros f t e l acc sp O T P OK W. revert l acc sp. induction W as [|v e Wv We IH]; intros l acc sp DEN SM SP.
  - injection DEN as <-. exists [], sp. rewrite app_nil_r. split; constructor.
  - apply omap_cons_inv in DEN as (p & rl & Dp & Dl & ->). cbn [map] in *. inversion SM as [|? ? SMp SMl]; subst. cbn [snd] in SMp.
    destruct (next_elem E t acc sp) as [x r] eqn:NE.
    assert (XU : x = unset E t /\ Forall (eq (unset E t)) r).
    { unfold next_elem in NE. destruct SP as [|y sp Y SP]; injection NE as <- <-; [|auto]. split; [reflexivity|].
      apply Forall_forall. intros z Z. apply repeat_spec in Z. auto. }
    destruct XU as [-> SP'].
    destruct (value_rt false (f_tag f) t v p (unset E t) OK Wv Dp SMp (unset_struct t)) as (v' & R & SV).
    destruct (IH rl (acc ++ [v']) r Dl SMl SP') as (e' & sp' & MS & F). exists (v' :: e'), sp'. split; [|now constructor].
    rewrite <- app_assoc in MS. econstructor; [|exact MS]. eapply m_elem; try eassumption. now right.
Qed.

Lemma packed_rt : forall f k e l z, f_oneof f = None -> f_T f = TSlice (TScalar k) -> f_packed f = true ->
  scalar_ok (f_tag f) k = true -> Forall (wtq (TScalar k)) e -> omap (value_den rec (f_tag f) (TScalar k)) e = Some l ->
  blen (payload_of (QPacked l)) < 2^63 ->
  merges E D f 2 (payload_of (QPacked l)) z (VSlice e []).
Proof.
  intros f k e l z O T P OK W DEN SM.
  assert (X : exists ns, e = map VNum ns /\ l = map (scalar_den (f_tag f) k) ns /\ Forall (num_ok k) ns).
  { clear SM. revert l DEN. induction W as [|v e Wv We IH]; intros l DEN.
    - injection DEN as <-. exists []. auto.
    - apply omap_cons_inv in DEN as (p & rl & Dp & Dl & ->). apply wt_scalar_inv in Wv as (n & -> & NO).
      destruct (IH rl Dl) as (ns & -> & -> & F). injection Dp as <-. exists (n :: ns). auto. }
  destruct X as (ns & -> & -> & F). cbn [payload_of] in *. apply lendelim_valid in SM as [VL _]. unfold lendelim.
  rewrite map_map. rewrite map_map in VL. apply (m_packed E D f k); try assumption.
  clear VL DEN W. induction F as [|n ns H _ IH]; [constructor|]. constructor; [|exact IH].
  pose proof (scalar_reads true (f_tag f) k n OK H) as R.
  assert (X : wtype (scalar_den (f_tag f) k n) = tag_wtype (f_tag f)) by (destruct (f_tag f), k; try discriminate OK; reflexivity).
  rewrite X in R. exact R.
Qed.

Lemma key_rt : forall D' raw tag kt k p k0, key_ok tag kt = true -> wtq kt k -> value_den rec tag kt k = Some p ->
  blen (payload_of p) < 2^63 -> reads E D' raw tag kt (wtype p) (payload_of p) k0 k /\
  ((exists n, k = VNum n) \/ (exists s, k = VStr s)).
Proof.
  intros D' raw tag kt k p k0 OK W DEN SM. destruct kt as [kk| | | | | | | |]; try discriminate OK; cbn [value_den] in DEN.
  - apply wt_scalar_inv in W as (n & -> & NO). injection DEN as <-. split; [|eauto]. constructor. apply scalar_reads; [|assumption].
    cbn [key_ok] in OK. now apply andb_prop in OK as [OK _].
  - apply wt_string_inv in W as (s & ->). injection DEN as <-. split; [|eauto].
    cbn [payload_of wtype] in *. apply lendelim_valid in SM as [VL _]. unfold lendelim. now constructor.
Qed.

Lemma map_set_new : forall m k v, (exists n, k = VNum n) \/ (exists s, k = VStr s) -> ~ In k (map fst m) ->
  map_set m k v = m ++ [(k, v)].
Proof.
  intros m k v K. induction m as [|[k' v'] m IH]; intro NI; [reflexivity|]. cbn [map_set map fst In app] in *.
  destruct (key_eqb k' k) eqn:X.
  - exfalso. apply NI. left. rewrite (key_eqb_sym k' k) in X. now apply key_eqb_eq in X.
  - rewrite IH; tauto.
Qed.
Lemma wtype_lt : forall p, wtype p < 8.
Proof. destruct p; cbn; lia. Qed.
Lemma tag_byte : forall n t, n < 15 -> t < 8 -> tag n t = [n2b (8 * n + t)] /\ b2n (n2b (8 * n + t)) = 8 * n + t.
Proof. intros n t Hn Ht. split; [apply varint_small; lia|rewrite b2n_n2b; apply N.mod_small; lia]. Qed.
End Step.

Definition okrec (D : Z) (rec : nat -> option val -> option pval) : Prop :=
  forall id p m, optP (wtq (TStruct id)) p -> rec id p = Some m -> blen (wire m) < 2^63 ->
  (exists fs u, m = QMsg fs u) /\
  exists v', decodes E (D - 1) id (wire m) (sd_zero (E id)) v' /\
    same_value E (TStruct id) (match p with Some v => v | None => sd_zero (E id) end) v'.
Notation small := (Forall (fun r : N * pval => blen (payload_of (snd r)) < 2^63)).

Section Data.
Variable D : Z.
Variables rec recm : nat -> option val -> option pval.
Hypothesis REC : okrec D rec.
Hypothesis RECM : okrec (D - 1) recm.

Lemma entry_rt : forall f kt vt k v p m, f_oneof f = None -> f_T f = TMap kt vt -> key_ok (f_ktag f) kt = true ->
  elem_ok (f_vtag f) vt = true -> wtq kt k -> wtq vt v -> entry_den rec recm f kt vt (k, v) = Some p ->
  blen (payload_of p) < 2^63 -> ~ In k (map fst (entries m)) ->
  exists v', merges E D f (wtype p) (payload_of p) (VMap m) (VMap (Some (entries m ++ [(k, v')]))) /\ same_value E vt v v'.
Proof.
  intros f kt vt k v p m O T HK HV Wk Wv DEN SM NI. unfold entry_den in DEN. cbn [fst snd] in DEN.
  destruct (value_den rec (f_ktag f) kt k) as [pk|] eqn:Dk; [|discriminate].
  destruct (value_den recm (f_vtag f) vt v) as [pv|] eqn:Dv; [|discriminate]. injection DEN as <-.
  rewrite wire_fields_payload in SM |- *. cbn [wtype]. apply lendelim_valid in SM as [VL SM].
  unfold wire_fields, record_of in *. cbn [map concat fst snd app] in *. rewrite !app_nil_r in *.
  destruct (tag_byte 1 (wtype pk)) as [T1 B1]; [lia|apply wtype_lt|]. destruct (tag_byte 2 (wtype pv)) as [T2 B2]; [lia|apply wtype_lt|].
  rewrite T1, T2 in *. rewrite <- !app_assoc in *.
  assert (S1 : blen (payload_of pk) < 2^63 /\ blen (payload_of pv) < 2^63).
  { clear VL. unfold blen in *. rewrite !app_length in SM. lia. }
  destruct S1 as [S1 S2].
  destruct (key_rt rec D (raw_bools kt vt (f_vtag f)) (f_ktag f) kt k pk VUninit HK Wk Dk S1) as [RK KF].
  destruct (value_rt (D - 1) recm RECM (raw_bools kt vt (f_vtag f)) (f_vtag f) vt v pv (unset E vt) HV Wv Dv S2 (unset_struct vt))
    as (v' & RV & SV).
  exists v'. split; [|exact SV].
  pose proof (m_entry E D f kt vt (varint (blen ([n2b (8 * 1 + wtype pk)] ++ payload_of pk ++ [n2b (8 * 2 + wtype pv)] ++ payload_of pv)))
    (n2b (8 * 1 + wtype pk)) (wtype pk) (payload_of pk) (n2b (8 * 2 + wtype pv)) (wtype pv) (payload_of pv) [] m VUninit k v' O T) as M.
  cbv zeta in M. rewrite !app_nil_r in M. specialize (M VL B1 (wtype_lt pk) B2 (wtype_lt pv) RK RV).
  unfold put_entry in M. rewrite map_set_new in M; [exact M|exact KF|exact NI].
Qed.

Lemma map_rt : forall f kt vt m l acc, f_oneof f = None -> f_T f = TMap kt vt -> key_ok (f_ktag f) kt = true ->
  elem_ok (f_vtag f) vt = true -> Forall (fun kv => wtq kt (fst kv) /\ wtq vt (snd kv)) m -> NoDup (map fst m) ->
  omap (entry_den rec recm f kt vt) m = Some l -> small (map (fun p => (field_num f, p)) l) ->
  (forall k, In k (map fst m) -> ~ In k (map fst (entries acc))) ->
  exists m', msteps D f (map (fun p => (field_num f, p)) l) (VMap acc) (VMap m') /\
    exists ad, entries m' = entries acc ++ ad /\ Forall2 (fun a b => fst a = fst b /\ same_value E vt (snd a) (snd b)) m ad.
Proof.
  intros f kt vt m l acc O T HK HV W. revert l acc. induction W as [|[k v] m [Wk Wv] W IH]; intros l acc ND DEN SM DJ.
  - injection DEN as <-. exists acc. split; [constructor|]. exists []. rewrite app_nil_r. auto.
  - apply omap_cons_inv in DEN as (p & rl & Dp & Dl & ->). cbn [map fst snd] in *. inversion SM as [|? ? SMp SMl]; subst. cbn [snd] in SMp.
    inversion ND as [|? ? NK ND']; subst.
    destruct (entry_rt f kt vt k v p acc O T HK HV Wk Wv Dp SMp (DJ k (or_introl eq_refl))) as (v' & M & SV).
    destruct (IH rl (Some (entries acc ++ [(k, v')])) ND' Dl SMl) as (m' & MS & ad & EQ & F).
    { intros k' I' X. cbn [entries] in X. rewrite map_app, in_app_iff in X. destruct X as [X|[X|[]]]; [apply (DJ k'); [now right|assumption]|].
      cbn in X. now subst k'. }
    exists m'. split; [econstructor; [exact M|exact MS]|]. exists ((k, v') :: ad). split.
    + rewrite EQ. cbn [entries]. rewrite <- app_assoc. reflexivity.
    + constructor; [split; [reflexivity|exact SV]|exact F].
Qed.

Lemma supported_elem : forall f, supported f = true -> match f_T f with
  | TMap kt vt => f_oneof f = None /\ key_ok (f_ktag f) kt = true /\ elem_ok (f_vtag f) vt = true
  | TSlice t => f_oneof f = None /\ elem_ok (f_tag f) t = true /\
      (f_packed f = true -> exists k, t = TScalar k /\ scalar_ok (f_tag f) k = true)
  | TPtr t => f_rep f = false /\ value_ok (f_tag f) t = true
  | t => f_rep f = false /\ value_ok (f_tag f) t = true
  end.
Proof.
  intros f S. unfold supported in S. destruct (f_T f) as [k| | |id|t|t|kt vt|alts|].
  1-5, 8-9: apply andb_prop in S as [S V]; apply andb_prop in S as [R _]; now destruct (f_rep f).
  - apply andb_prop in S as [S P]. apply andb_prop in S as [S V]. apply andb_prop in S as [_ O]. split; [now destruct (f_oneof f)|].
    split; [assumption|]. intro HP. rewrite HP in P. destruct t; try discriminate P. eauto.
  - apply andb_prop in S as [S V]. apply andb_prop in S as [S K]. apply andb_prop in S as [S _]. apply andb_prop in S as [_ O].
    split; [now destruct (f_oneof f)|auto].
Qed.
Lemma value_elem : forall tag t, value_ok tag t = true -> elem_ok tag t = true.
Proof. intros tag [] H; try discriminate H; exact H. Qed.

(** A field without oneof, starting from the zero value. *)
Lemma data_rt : forall f v rs, supported f = true -> f_oneof f = None -> wtq (f_T f) v -> data_den E rec recm f v = Some rs -> small rs ->
  exists z', msteps D f rs (zero_of E (f_T f)) z' /\ same_data E f v z'.
Proof.
  intros f v rs S O W DEN SM. pose proof (supported_elem f S) as SE. unfold data_den in DEN.
  assert (SGL : f_rep f = false -> value_ok (f_tag f) (f_T f) = true ->
    (if omitted E (f_T f) v then Some [] else option_map (fun p => [(field_num f, p)]) (value_den rec (f_tag f) (f_T f) v)) = Some rs ->
    exists z', msteps D f rs (zero_of E (f_T f)) z' /\ same_data E f v z').
  { intros R V H. destruct (omitted E (f_T f) v) eqn:OM.
    - injection H as <-. exists (zero_of E (f_T f)). split; [constructor|]. apply sd_single; [now apply (value_ok_strip (f_tag f))|].
      clear - OM W V WF. destruct (f_T f) as [k| | |id| | | | |]; try discriminate V; cbn [zero_of].
      + apply wt_scalar_inv in W as (n & -> & _). cbn in OM. apply N.eqb_eq in OM as ->. constructor.
      + apply wt_string_inv in W as (s & ->). cbn in OM. destruct s; [constructor|discriminate].
      + apply wt_bytes_inv in W as (s & ->). cbn in OM. constructor. destruct s as [[|]|]; try reflexivity. discriminate.
      + cbn [omitted] in OM. apply andb_prop in OM as [_ OM]. exact (raw_zero_same v (TStruct id) OM W).
    - destruct (value_den rec (f_tag f) (f_T f) v) as [p|] eqn:DV; [|discriminate]. injection H as <-.
      inversion SM as [|? ? SMp _]; subst. cbn [snd] in SMp.
      destruct (value_rt D rec REC false (f_tag f) (f_T f) v p (zero_of E (f_T f)) (value_elem _ _ V) W DV SMp) as (v' & RD & SV);
        [intros id ->; reflexivity|].
      exists v'. split; [econstructor; [|constructor]|].
      + apply m_single; assumption.
      + apply sd_single; [now apply (value_ok_strip (f_tag f))|exact SV]. }
  destruct (f_T f) as [k| | |id|t|t|kt vt|alts|] eqn:T; try (apply SGL; tauto).
  - clear SGL. destruct SE as [R V]. apply wt_ptr_inv in W as ([x|] & -> & WO).
    + destruct (value_den rec (f_tag f) t x) as [p|] eqn:DV; [|discriminate]. injection DEN as <-.
      inversion SM as [|? ? SMp _]; subst. cbn [snd] in SMp.
      destruct (value_rt D rec REC false (f_tag f) t x p (unset E t) (value_elem _ _ V) WO DV SMp (unset_struct t)) as (v' & RD & SV).
      exists (VPtr (Some v')). split; [|now apply (sd_set E f t)]. econstructor; [|constructor].
      apply m_single; [assumption|assumption|]. rewrite T. now constructor.
    + injection DEN as <-. exists (VPtr None). split; [constructor|now apply (sd_unset E f t)].
  - clear SGL. destruct SE as (_ & V & HP). apply wt_slice_inv in W as (e & sp & -> & We & _). cbn [zero_of].
    destruct (omap (value_den rec (f_tag f) t) e) as [l|] eqn:DL; [|discriminate]. injection DEN as <-.
    destruct (f_packed f) eqn:P.
    + destruct (HP eq_refl) as (k & -> & OK).
      assert (SR : same_data E f (VSlice e sp) (VSlice e [])).
      { apply (sd_list E f (TScalar k)); [assumption|]. clear - We. induction We as [|x e Wx We IH]; constructor; [|assumption].
        apply wt_scalar_inv in Wx as (n & -> & _). constructor. }
      destruct l as [|p l].
      * destruct e; [|apply omap_cons_inv in DL as (? & ? & _ & _ & X); discriminate X]. exists (VSlice [] []). split; [constructor|exact SR].
      * inversion SM as [|? ? SMp _]; subst. cbn [snd] in SMp. exists (VSlice e []). split; [|exact SR].
        econstructor; [|constructor]. cbn [wtype]. eapply packed_rt; eassumption.
    + destruct (list_rt D rec REC f t e l [] [] O T P V We DL SM) as (e' & sp' & MS & F); [constructor|].
      exists (VSlice e' sp'). split; [exact MS|]. now apply (sd_list E f t).
  - clear SGL. destruct SE as (_ & K & V). apply wt_map_inv in W as (m & -> & Wm). cbn [zero_of].
    destruct (omap (entry_den rec recm f kt vt) _) as [l|] eqn:DL; [|discriminate]. injection DEN as <-.
    fold (entries m) in DL.
    assert (W' : Forall (fun kv => wtq kt (fst kv) /\ wtq vt (snd kv)) (entries m) /\ NoDup (map fst (entries m))).
    { destruct m; [exact Wm|split; constructor]. }
    destruct W' as [W1 W2]. destruct (map_rt f kt vt (entries m) l None O T K V W1 W2 DL SM) as (m' & MS & ad & EQ & F); [auto|].
    exists (VMap m'). split; [exact MS|]. apply (sd_map E f kt vt m (entries m)); [assumption|reflexivity|]. rewrite EQ. exact F.
Qed.

Definition activeb (f : fdesc) (slot : val) : bool :=
  match f_oneof f with
  | None => true
  | Some w => match slot with VIface (Some (w', Some x)) => Nat.eqb w' w && negb (dropped E f x) | _ => false end
  end.

Lemma field_rt : forall f t slot rs, supported f = true -> slot_type f t -> wtq t slot -> field_den E rec recm f slot = Some rs -> small rs ->
  if activeb f slot
  then exists z', msteps D f rs (zero_of E t) z' /\ same_field E f slot z'
  else rs = [] /\ exists w, f_oneof f = Some w /\ forall slot', ~ holds w slot' -> same_field E f slot slot'.
Proof.
  intros f t slot rs S ST W DEN SM. unfold activeb, slot_type, field_den in *. destruct (f_oneof f) as [w|] eqn:O.
  - destruct ST as (alts & -> & LA). apply wt_iface_inv in W as [->|[(w' & t & -> & L)|(w' & x & t & -> & L & Wx)]]; [| | |reflexivity].
    + injection DEN as <-. split; [reflexivity|]. exists w. split; [reflexivity|]. intros slot' NH. apply (sf_other E f w); auto.
      intros [o X]; discriminate X.
    + injection DEN as <-. split; [reflexivity|]. exists w. split; [reflexivity|]. intros slot' NH.
      destruct (Nat.eq_dec w' w) as [->|NW]; [now apply (sf_nil E f w)|]. apply (sf_other E f w); auto. intros [o X]. congruence.
    + destruct (Nat.eqb_spec w' w) as [->|NW]; cbn [andb].
      2:{ injection DEN as <-. split; [reflexivity|]. exists w. split; [reflexivity|]. intros slot' NH. apply (sf_other E f w); auto. intros [o X]. congruence. }
      rewrite LA in L. injection L as <-. pose proof (supported_elem f S) as SE. unfold data_den in DEN. unfold dropped.
      assert (SGL : f_rep f = false -> value_ok (f_tag f) (f_T f) = true ->
        (if omitted E (f_T f) x then Some [] else option_map (fun p => [(field_num f, p)]) (value_den rec (f_tag f) (f_T f) x)) = Some rs ->
        dropped E f x = omitted E (f_T f) x ->
        if negb (omitted E (f_T f) x) then exists z', msteps D f rs (zero_of E (TIface alts)) z' /\ same_field E f (VIface (Some (w, Some x))) z'
        else rs = [] /\ exists w0, Some w = Some w0 /\ forall slot', ~ holds w0 slot' -> same_field E f (VIface (Some (w, Some x))) slot').
      { intros R V H DR. destruct (omitted E (f_T f) x) eqn:OM; cbn [negb].
        - injection H as <-. split; [reflexivity|]. exists w. split; [reflexivity|]. intros slot' NH. now apply (sf_dropped E f w).
        - destruct (value_den rec (f_tag f) (f_T f) x) as [p|] eqn:DV; [|discriminate]. injection H as <-.
          inversion SM as [|? ? SMp _]; subst. cbn [snd] in SMp.
          destruct (value_rt D rec REC false (f_tag f) (f_T f) x p (unset E (f_T f)) (value_elem _ _ V) Wx DV SMp (unset_struct (f_T f))) as (v' & RD & SV).
          exists (VIface (Some (w, Some v'))). split; [econstructor; [|constructor]|].
          + apply m_oneof; assumption.
          + apply (sf_member E f w); [assumption|exact DR|]. apply sd_single; [now apply (value_ok_strip (f_tag f))|exact SV]. }
      unfold dropped in SGL. destruct (f_T f) as [k| | |id|t|t|kt vt|alts'|] eqn:T; try (apply SGL; tauto); clear SGL.
      * destruct SE as [R V]. apply wt_ptr_inv in Wx as ([y|] & -> & WO); cbn [negb].
        -- destruct (value_den rec (f_tag f) t y) as [p|] eqn:DV; [|discriminate]. injection DEN as <-.
          inversion SM as [|? ? SMp _]; subst. cbn [snd] in SMp.
          destruct (value_rt D rec REC false (f_tag f) t y p (unset E t) (value_elem _ _ V) WO DV SMp (unset_struct t)) as (v' & RD & SV).
          exists (VIface (Some (w, Some (VPtr (Some v'))))). split.
          ++ econstructor; [|constructor]. apply m_oneof; [assumption|]. rewrite T. now constructor.
          ++ apply (sf_member E f w); [assumption|unfold dropped; now rewrite T|]. now apply (sd_set E f t).
        -- injection DEN as <-. split; [reflexivity|]. exists w. split; [reflexivity|]. intros slot' NH. apply (sf_dropped E f w); auto.
           unfold dropped. now rewrite T.
      * destruct SE as [X _]. congruence.
      * destruct SE as [X _]. congruence.
  - subst t. destruct (data_rt f slot rs S O W DEN SM) as (z' & MS & SD). exists z'. split; [exact MS|]. now apply sf_plain.
Qed.

(** The records of one field, in the record loop. *)
Lemma msteps_records : forall id f rs z z', In f (sd_fields (E id)) -> msteps D f rs z z' ->
  forall cur unk b v', nth_error cur (f_slot f) = Some z -> records E D id b (VStruct (upd_nth (f_slot f) z' cur) unk) v' ->
  records E D id (wire_fields rs ++ b) (VStruct cur unk) v'.
Proof.
  intros id f rs z z' HI MS. induction MS as [z|p rs z z1 z2 M MS IH]; intros cur unk b v' NZ R.
  - cbn. replace cur with (upd_nth (f_slot f) z cur); [exact R|]. clear - NZ. revert NZ. generalize (f_slot f).
    induction cur as [|c cur IH]; intros [|n] NZ; try discriminate NZ; cbn in *; [congruence|now rewrite IH].
  - unfold wire_fields. cbn [map concat]. unfold record_of at 1. cbn [fst snd]. rewrite <- !app_assoc.
    pose proof (wtype_lt p) as WL. assert (LT : (f_slot f < length cur)%nat) by (apply nth_error_Some; congruence).
    eapply rs_known; [exact HI| |exact WL|exact NZ|exact M|].
    + apply varint_valid. pose proof (wf_num E anyQ WF id f HI). lia.
    + apply IH; [now apply upd_nth_same|]. replace (upd_nth (f_slot f) z2 (upd_nth (f_slot f) z1 cur)) with (upd_nth (f_slot f) z2 cur); [exact R|].
      clear. generalize (f_slot f). induction cur as [|c cur IH]; intros [|n]; cbn; auto. now rewrite <- IH.
Qed.

(** The unknown records. *)
Lemma unknown_records : forall id rs cur unk, sd_unknown (E id) = true -> Forall wf_wrec rs ->
  Forall (fun r => known E id r = false /\ exists d, payload (w_num r) (w_typ r) (w_data r) d /\ N.of_nat d <= 10001) rs ->
  exists unk', records E D id (concat (map w_raw rs)) (VStruct cur unk) (VStruct cur unk') /\
    unk_bytes unk' = unk_bytes unk ++ concat (map w_raw rs).
Proof.
  intros id rs cur unk U WR. revert unk. induction WR as [|r rs (V & TL & NB & _) WR IH]; intros unk F; inversion F as [|? ? [K (d & P & L)] F']; subst.
  - exists unk. cbn. rewrite app_nil_r. split; constructor.
  - destruct (IH (Some (match unk with Some u => u ++ w_raw r | None => w_raw r end)) F') as (unk' & R & EQ).
    exists unk'. split.
    + cbn [map concat]. eapply rs_unknown with (num := w_num r) (d := d).
      * exists (w_tag r), (8 * w_num r + w_typ r), (w_data r). split; [reflexivity|]. auto.
      * exact L.
      * now apply known_false.
      * rewrite U. exact R.
    + rewrite EQ. cbn [map concat unk_bytes]. destruct unk; cbn; now rewrite <- ?app_assoc.
Qed.

Lemma small_app : forall a b : list (N * pval), small (a ++ b) -> small a /\ small b.
Proof. intros a b H. now apply Forall_app in H. Qed.

Section Struct.
Variable id : nat.
Variable s : list val.
Hypothesis W : Forall2 (fun t v => wtq t v) (sd_slots (E id)) s.

Definition active (f : fdesc) : bool := match nth_error s (f_slot f) with Some slot => activeb f slot | None => false end.

Lemma active_unique : forall f g, In f (sd_fields (E id)) -> In g (sd_fields (E id)) -> f_slot f = f_slot g ->
  active f = true -> active g = true -> f = g.
Proof.
  intros f g Hf Hg SL AF AG. destruct (wf_slots _ _ (WF id) f g Hf Hg SL) as [X|(w & w' & Of & Og & NW)]; [exact X|].
  unfold active, activeb in *. rewrite SL in AF. rewrite Of in AF. rewrite Og in AG. destruct (nth_error s (f_slot g)) as [[]|]; try discriminate.
  destruct i as [[w0 [x|]]|]; try discriminate. apply andb_prop in AF as [A _]. apply andb_prop in AG as [B _].
  apply Nat.eqb_eq in A, B. congruence.
Qed.

Lemma fields_rt : forall fs cur rs, (forall f, In f fs -> In f (sd_fields (E id))) -> NoDup fs ->
  (forall f t, In f fs -> active f = true -> nth_error (sd_slots (E id)) (f_slot f) = Some t -> nth_error cur (f_slot f) = Some (zero_of E t)) ->
  fields_den E rec recm fs s = Some rs -> small rs ->
  exists cur', (forall b unk v', records E D id b (VStruct cur' unk) v' -> records E D id (wire_fields rs ++ b) (VStruct cur unk) v') /\
    (forall i, (forall f, In f fs -> f_slot f = i -> active f = false) -> nth_error cur' i = nth_error cur i) /\
    (forall f, In f fs -> exists slot, nth_error s (f_slot f) = Some slot /\
      if active f then exists z, nth_error cur' (f_slot f) = Some z /\ same_field E f slot z
      else exists w, f_oneof f = Some w /\ forall slot', ~ holds w slot' -> same_field E f slot slot').
Proof.
  induction fs as [|f fs IH]; intros cur rs HI ND HZ DEN SM; unfold fields_den in DEN.
  - cbn in DEN. injection DEN as <-. exists cur. split; [intros b unk v' R; exact R|]. split; [reflexivity|]. intros f [].
  - destruct (omap _ (f :: fs)) as [l|] eqn:OM; [|discriminate]. cbn [option_map] in DEN. injection DEN as <-.
    apply omap_cons_inv in OM as (r & rl & D1 & D2 & ->). cbn [concat] in *. apply small_app in SM as [SM1 SM2].
    destruct (nth_error s (f_slot f)) as [slot|] eqn:NS; [|discriminate].
    pose proof (HI f (or_introl eq_refl)) as HF. inversion ND as [|? ? NF ND']; subst.
    destruct (wf_slot_type E WF id f HF) as (t & NT & ST).
    destruct (Forall2_nth_error _ _ _ _ _ W NT) as (slot0 & NS' & WS). rewrite NS in NS'. injection NS' as <-.
    pose proof (field_rt f t slot r (wf_supported E WF id f HF) ST WS D1 SM1) as FR.
    assert (AE : active f = activeb f slot) by (unfold active; now rewrite NS). rewrite <- AE in FR.
    assert (DEN' : fields_den E rec recm fs s = Some (concat rl)) by (unfold fields_den; now rewrite D2).
    destruct (active f) eqn:AF.
    + destruct FR as (z' & MS & SF). pose proof (HZ f t (or_introl eq_refl) AF NT) as NZ.
      assert (LT : (f_slot f < length cur)%nat) by (apply nth_error_Some; congruence).
      destruct (IH (upd_nth (f_slot f) z' cur) (concat rl)) as (cur' & R & OT & SA); auto.
      { intros g HG. apply HI. now right. }
      { intros g t' HG AG NG. rewrite upd_nth_other; [apply HZ; auto; now right|]. intro X. apply NF.
        rewrite (active_unique f g HF (HI g (or_intror HG)) X AF AG). exact HG. }
      exists cur'. split; [|split].
      * intros b unk v' RR. unfold wire_fields. rewrite map_app, concat_app, <- app_assoc.
        eapply msteps_records; [exact HF|exact MS|exact NZ|]. apply R, RR.
      * intros i HN. rewrite OT by (intros g HG; apply HN; now right). apply upd_nth_other. intro X.
        rewrite (HN f (or_introl eq_refl) X) in AF. discriminate AF.
      * intros g [<-|HG]; [|now apply SA]. exists slot. split; [assumption|]. rewrite AF. exists z'. split; [|exact SF].
        rewrite OT; [now apply upd_nth_same|]. intros g HG X. destruct (active g) eqn:AG; [|reflexivity]. exfalso. apply NF.
        rewrite (active_unique f g HF (HI g (or_intror HG)) (eq_sym X) AF AG). exact HG.
    + destruct FR as [-> FR]. destruct (IH cur (concat rl)) as (cur' & R & OT & SA); auto.
      { intros g HG. apply HI. now right. }
      { intros g t' HG AG NG. apply HZ; auto. now right. }
      exists cur'. split; [exact R|split].
      * intros i HN. apply OT. intros g HG. apply HN. now right.
      * intros g [<-|HG]; [|now apply SA]. exists slot. rewrite AF. split; [assumption|exact FR].
Qed.

Lemma struct_rt : forall u rs, D <> 0%Z -> match u with Some bs => sd_unknown (E id) = true /\ Q id bs | None => True end ->
  fields_den E rec recm (sd_fields (E id)) s = Some rs -> small rs ->
  exists v', decodes E D id (wire_fields rs ++ unk_bytes u) (sd_zero (E id)) v' /\ same_value E (TStruct id) (VStruct s u) v'.
Proof.
  intros u rs D0 WU DEN SM. rewrite (wf_zero _ _ (WF id)).
  assert (ND : NoDup (sd_fields (E id))).
  { apply (NoDup_map_inv f_id). apply sorted_nodup, (wf_sorted _ _ (WF id)). }
  destruct (fields_rt (sd_fields (E id)) (map (zero_of E) (sd_slots (E id))) rs) as (cur' & R & OT & SA); auto.
  { intros f t _ _ NT. now apply map_nth_error. }
  assert (U : exists unk', records E D id (unk_bytes u) (VStruct cur' (if sd_unknown (E id) then option_map (fun _ : bytes => []) None else None)) (VStruct cur' unk') /\
    unk_bytes unk' = unk_bytes u).
  { assert (X : forall b : bool, (if b then option_map (fun _ : bytes => @nil Byte.byte) (@None bytes) else None) = None) by (now intros []).
    rewrite X.
    destruct u as [bs|]; cbn [unk_bytes].
    - destruct WU as [SU (wr & [WR ->] & F)]. exact (unknown_records id wr cur' None SU WR F).
    - exists None. split; [constructor|reflexivity]. }
  destruct U as (unk' & RU & EU). exists (VStruct cur' unk'). split.
  - constructor; [assumption|]. apply R, RU.
  - constructor; [congruence|]. intros f HF. destruct (SA f HF) as (slot & NS & H). exists slot.
    destruct (active f) eqn:AF.
    + destruct H as (z & NZ & SF). eauto.
    + destruct H as (w & O & H). destruct (wf_fields _ _ (WF id) f HF) as (_ & _ & FT). rewrite O in FT. destruct FT as (alts & NT & LA).
      destruct (existsb (fun g => Nat.eqb (f_slot g) (f_slot f) && active g) (sd_fields (E id))) eqn:EX.
      * apply existsb_exists in EX as (g & HG & X). apply andb_prop in X as [SL AG]. apply Nat.eqb_eq in SL.
        destruct (SA g HG) as (slot2 & NS2 & H2). rewrite AG in H2. destruct H2 as (z & NZ & SF). rewrite SL in *. rewrite NS in NS2. injection NS2 as <-.
        exists z. split; [assumption|]. split; [assumption|]. apply H.
        destruct (wf_slots _ _ (WF id) g f HG HF SL) as [X|(wg & w' & Og & O' & NW)]; [congruence|].
        unfold active in AG. rewrite SL, NS in AG. unfold activeb in AG. rewrite Og in AG. rewrite O in O'. injection O' as <-.
        intros [o ->]. destruct slot as [| | | | | | | |[[w0 [x|]]|]]; try discriminate AG. apply andb_prop in AG as [AW AD].
        apply Nat.eqb_eq in AW as ->. inversion SF; subst.
        all: try congruence.
        -- match goal with H : dropped E g x = true |- _ => rewrite H in AD; discriminate AD end.
        -- match goal with H : ~ holds ?y (VIface (Some (_, Some x))) |- _ => apply H; assert (y = wg) as -> by congruence; eexists; reflexivity end.
      * exists (zero_of E (TIface alts)). split; [assumption|]. split.
        -- rewrite OT; [now apply map_nth_error|]. intros g HG SL. destruct (active g) eqn:AG; [|reflexivity].
           exfalso. rewrite <- not_true_iff_false in EX. apply EX. apply existsb_exists. exists g. split; [assumption|].
           rewrite AG. now rewrite SL, Nat.eqb_refl.
        -- apply H. intros [o X]. discriminate X.
Qed.
End Struct.
End Data.

Lemma small_fields : forall fs u, blen (wire_fields fs ++ u) < 2^63 -> Forall (fun r : N * pval => blen (payload_of (snd r)) < 2^63) fs.
Proof.
  intros fs u H. apply Forall_forall. intros r HI. apply in_split in HI as (a & b & ->).
  unfold wire_fields in H. rewrite map_app, concat_app in H. cbn [map concat] in H. unfold record_of at 2 in H.
  unfold blen in *. rewrite !app_length in H. lia.
Qed.

(** The main step: a message with at most [d] levels (maps counting twice) is read back
    with [D >= d] levels. *)
Theorem msg_rt : forall n d D id p m, (d <= n)%nat -> (Z.of_nat d <= D)%Z -> optP (wtq (TStruct id)) p -> msg E true d id p = Some m ->
  blen (wire m) < 2^63 ->
  (exists fs u, m = QMsg fs u) /\
  exists v', decodes E D id (wire m) (sd_zero (E id)) v' /\
    same_value E (TStruct id) (match p with Some v => v | None => sd_zero (E id) end) v'.
Proof.
  induction n as [|n IH]; intros d D id p m Hn HD WP DEN SM; destruct d as [|d]; try lia; try discriminate DEN. cbn [msg] in DEN.
  set (v := match p with Some v => v | None => sd_zero (E id) end) in *.
  assert (WV : wtq (TStruct id) v). { subst v. destruct p; [exact WP|]. apply (wt_zero E Q WF false (TStruct id)). }
  clearbody v. clear WP. apply wt_struct_inv in WV as (s & u & -> & WS & WU).
  destruct (fields_den _ _ _ _ _) as [rs|] eqn:FD; [|discriminate]. cbn [option_map] in DEN. injection DEN as <-.
  split; [eauto|]. change (match u with Some u => u | None => [] end) with (unk_bytes u) in *. cbn [wire] in *.
  eapply struct_rt; [| |exact WS| |exact WU|exact FD|exact (small_fields _ _ SM)].
  - intros id' p' m' WP' DEN' SM'. apply (IH d (D - 1)%Z id' p' m'); auto; lia.
  - destruct d as [|d]; intros id' p' m' WP' DEN' SM'; [discriminate DEN'|]. apply (IH d (D - 1 - 1)%Z id' p' m'); auto; lia.
  - lia.
Qed.
End RT.
