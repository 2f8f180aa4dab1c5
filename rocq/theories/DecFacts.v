(** Consequences of the decoding theorems. *)
From Verif Require Import Base Wire WireSpec WireProofs WireConsume WireFacts Coder MapTables Value WireVal Desc MsgSpec ValFacts ScalarProofs Encoder EncProofs Decoder DescProofs DecSpec DecScalar DecMap DecProofs.
From Coq Require Import Lia ZifyBool ZifyNat ZifyN Init.Byte.
Open Scope N_scope.

(** ** Records of the wire grammar *)
Lemma varint_prefix_unique : forall t1 v1 r1 t2 v2 r2, valid_varint t1 v1 -> valid_varint t2 v2 -> t1 ++ r1 = t2 ++ r2 ->
  t1 = t2 /\ v1 = v2 /\ r1 = r2.
Proof.
  intros t1 v1 r1 t2 v2 r2 V1 V2 E. pose proof (ConsumeVarint_valid _ _ r1 V1) as C1.
  pose proof (ConsumeVarint_valid _ _ r2 V2) as C2. rewrite E in C1. rewrite C2 in C1. injection C1 as -> L.
  assert (t1 = t2).
  { apply (f_equal (firstn (length t1))) in E. rewrite firstn_app_len in E. rewrite <- L in E. now rewrite firstn_app_len in E. }
  subst. repeat split. now apply app_inv_head in E.
Qed.

Lemma wrec_prefix_unique : forall r1 s1 r2 s2, wf_wrec r1 -> wf_wrec r2 -> w_raw r1 ++ s1 = w_raw r2 ++ s2 -> r1 = r2 /\ s1 = s2.
Proof.
  intros [n1 y1 t1 p1] s1 [n2 y2 t2 p2] s2 (V1 & T1 & B1 & d1 & P1) (V2 & T2 & B2 & d2 & P2) E. cbn in *.
  unfold w_raw in E. cbn [w_tag w_data] in E. rewrite <- !app_assoc in E.
  destruct (varint_prefix_unique _ _ _ _ _ _ V1 V2 E) as (-> & EV & E2).
  assert (n1 = n2 /\ y1 = y2) as [-> ->] by lia.
  destruct (payload_prefix_unique _ _ _ _ _ _ _ _ P1 P2 E2) as [-> ->]. auto.
Qed.

Lemma wrec_nonempty : forall r, wf_wrec r -> w_raw r <> [].
Proof.
  intros r (V & _) X. apply valid_varint_length in V. unfold w_raw in X. apply app_eq_nil in X as [X _].
  rewrite X in V. cbn in V. lia.
Qed.

Lemma wire_records_unique : forall b rs rs', wire_records b rs -> wire_records b rs' -> rs = rs'.
Proof.
  intros b rs. revert b. induction rs as [|r rs IH]; intros b rs' [F ->] [F' E].
  - destruct rs' as [|r' rs']; [reflexivity|]. cbn in E. symmetry in E. apply app_eq_nil in E as [E _].
    inversion F'; subst. now apply wrec_nonempty in E.
  - destruct rs' as [|r' rs'].
    + cbn in E. apply app_eq_nil in E as [E _]. inversion F; subst. now apply wrec_nonempty in E.
    + inversion F; inversion F'; subst. cbn in E. apply wrec_prefix_unique in E as [-> E]; auto.
      f_equal. eapply IH; [split; [assumption|reflexivity]|split; [assumption|exact E]].
Qed.

(** A sequence of records that starts with given records. *)
Lemma wire_records_split : forall rs1 s rs, Forall wf_wrec rs1 -> wire_records (concat (map w_raw rs1) ++ s) rs ->
  exists rs2, rs = rs1 ++ rs2 /\ wire_records s rs2.
Proof.
  induction rs1 as [|r rs1 IH]; intros s rs F W; [exists rs; auto|].
  inversion F; subst. destruct W as [WF WE]. cbn [map concat] in WE. rewrite <- app_assoc in WE.
  destruct rs as [|r' rs].
  - cbn in WE. apply app_eq_nil in WE as [WE _]. now apply wrec_nonempty in WE.
  - cbn [map concat] in WE. inversion WF; subst. apply wrec_prefix_unique in WE as [-> WE]; auto.
    destruct (IH s rs) as (rs2 & -> & W2); [assumption|split; assumption|]. exists rs2. auto.
Qed.

Lemma wire_records_app : forall b1 rs1 b2 rs2, wire_records b1 rs1 -> wire_records b2 rs2 ->
  wire_records (b1 ++ b2) (rs1 ++ rs2).
Proof.
  intros b1 rs1 b2 rs2 [F1 ->] [F2 ->]. split; [now apply Forall_app|]. now rewrite map_app, concat_app.
Qed.

(** ** Payloads accepted by fields are payloads of the grammar *)
Lemma reads_payload : forall E t D tag typ p x x' num, reads E D false tag t typ p x x' -> payload num typ p 0.
Proof.
  intros E t. induction t as [k| | |id|t IH|t IH|kt IHk vt IHv|alts|]; intros D tag typ p x x' num R; inversion R; subst.
  - match goal with H : reads_scalar _ _ _ _ _ _ |- _ => inversion H; subst end; try discriminate; econstructor; eassumption.
  - econstructor; [eassumption|reflexivity].
  - econstructor; [eassumption|reflexivity].
  - econstructor; [eassumption|reflexivity].
  - eapply IH; eassumption.
Qed.
Lemma merges_payload : forall E D f typ p s s' num, merges E D f typ p s s' -> payload num typ p 0.
Proof.
  intros E D f typ p s s' num M. inversion M; subst; try (eapply reads_payload; eassumption).
  - econstructor; [eassumption|reflexivity].
  - econstructor; [eassumption|reflexivity].
Qed.

Definition anyQ : nat -> bytes -> Prop := fun _ _ => True.
Section Facts.
Variable E : env.
Hypothesis WF : wf_env E.

Lemma known_false : forall id r, known E id r = false <-> forall f, In f (sd_fields (E id)) -> field_num f <> w_num r.
Proof.
  intros id r. unfold known. split.
  - intros H f HI X. assert (A : existsb (fun f => field_num f =? w_num r) (sd_fields (E id)) = true).
    { apply existsb_exists. exists f. split; [assumption|]. now apply N.eqb_eq. }
    congruence.
  - intro H. destruct (existsb (fun f => field_num f =? w_num r) (sd_fields (E id))) eqn:X; [|reflexivity].
    apply existsb_exists in X as (f & HI & X). apply N.eqb_eq in X. now apply H in HI.
Qed.
Lemma known_true : forall id r, known E id r = true <-> exists f, In f (sd_fields (E id)) /\ field_num f = w_num r.
Proof.
  intros id r. unfold known. rewrite existsb_exists. split; intros (f & HI & X); exists f; (split; [assumption|]); now apply N.eqb_eq.
Qed.

Lemma records_steps : forall D id b v v', records E D id b v v' <->
  exists rs, wire_records b rs /\ steps E D id rs v v'.
Proof.
  intros D id b v v'. split.
  - intro R. induction R as [D id v|D id num typ raw d b slots unk v' RR DD U R IH|
      D id f t typ p b slots unk slot slot' v' IF VT TY NS MG R IH].
    + exists []. split; [split; [constructor|reflexivity]|constructor].
    + destruct IH as (rs & [WF' ->] & S). destruct RR as (t & w & p & -> & V & -> & TY & NB & PL).
      exists (mkW num typ t p :: rs). split.
      * split; [|reflexivity]. constructor; [|assumption]. split; [exact V|]. cbn. eauto.
      * econstructor; [|exact S]. eapply (st_unknown E D id (mkW num typ t p) d).
        -- apply known_false. exact U.
        -- exact PL.
        -- exact DD.
    + destruct IH as (rs & [WF' ->] & S). destruct (wf_num E anyQ WF id f IF) as [NB _].
      exists (mkW (field_num f) typ t p :: rs). split.
      * split; [|cbn; unfold w_raw; cbn; now rewrite <- app_assoc]. constructor; [|assumption]. split; [exact VT|]. cbn.
        split; [assumption|]. split; [assumption|]. exists O. eapply merges_payload; exact MG.
      * econstructor; [|exact S]. eapply (st_known E D id (mkW (field_num f) typ t p)); eauto.
  - intros (rs & [F ->] & S). induction S as [v|r rs v v1 v' ST S IH].
    + constructor.
    + inversion F as [|? ? (VT & TY & NB & _) F']; subst. specialize (IH F'). cbn [map concat].
      destruct ST as [d slots unk K PL DD|f slots unk slot slot' IF FN NS MG].
      * eapply rs_unknown; [|exact DD|apply known_false, K|exact IH].
        exists (w_tag r), (8 * w_num r + w_typ r), (w_data r). auto 10.
      * unfold w_raw. rewrite <- app_assoc. eapply rs_known; eauto. now rewrite FN.
Qed.

Lemma decodes_steps : forall D id b v v', (exists s u, v = VStruct s u) ->
  (decodes E D id b v v' <-> D <> 0%Z /\ exists rs, wire_records b rs /\ steps E D id rs (drop_unknown E id v) v').
Proof.
  intros D id b v v' (s & u & ->). rewrite <- records_steps. split.
  - intro H. inversion H; subst. auto.
  - intros [H1 H2]. now constructor.
Qed.

(** C05, C09, C29 *)
Lemma Unmarshal_decodes : forall P id b v v', wt E (TStruct id) v ->
  (Unmarshal E P b (APtr id (Some v)) = DOk v' tt <-> decodes E 1000 id b v v').
Proof.
  intros P id b v v' W. unfold Unmarshal. change (Z.of_nat defaultRecursionMaxDepth) with 1000%Z. split.
  - intro H. pose proof (DecodeStruct2 E anyQ WF (fun _ => I) (fun _ _ _ _ _ _ _ _ _ _ => I)
      (S (length b)) [] P id 1000%Z b v false ltac:(lia) W) as X. rewrite H in X. apply X.
  - intro H. apply (DecodeStruct1 E anyQ); auto.
Qed.

Lemma Unmarshal_steps : forall P id b v v', wt E (TStruct id) v ->
  (Unmarshal E P b (APtr id (Some v)) = DOk v' tt <->
   exists rs, wire_records b rs /\ steps E 1000 id rs (drop_unknown E id v) v').
Proof.
  intros P id b v v' W. rewrite Unmarshal_decodes by assumption. rewrite decodes_steps.
  - split; [tauto|]. split; [discriminate|assumption].
  - apply wt_struct_inv in W as (s & u & -> & _). eauto.
Qed.

Lemma Unmarshal_total : forall P id b v, wt E (TStruct id) v ->
  (exists v', Unmarshal E P b (APtr id (Some v)) = DOk v' tt /\ wt E (TStruct id) v') \/
  (exists v' e, Unmarshal E P b (APtr id (Some v)) = DErr v' e).
Proof.
  intros P id b v W. unfold Unmarshal.
  pose proof (DecodeStruct2 E anyQ WF (fun _ => I) (fun _ _ _ _ _ _ _ _ _ _ => I)
      (S (length b)) [] P id (Z.of_nat defaultRecursionMaxDepth) b v false ltac:(lia) W) as X.
  destruct (DecodeStruct E (S (length b)) [] P id (Z.of_nat defaultRecursionMaxDepth) b v) as [v' []|v' e| |]; try easy.
  - left. exists v'. split; [reflexivity|]. apply X.
  - right. eauto.
Qed.

(** The known split of the input into records. *)
Lemma Unmarshal_known : forall P id b v v' rs, wt E (TStruct id) v -> wire_records b rs ->
  (Unmarshal E P b (APtr id (Some v)) = DOk v' tt <-> steps E 1000 id rs (drop_unknown E id v) v').
Proof.
  intros P id b v v' rs W R. rewrite Unmarshal_steps by assumption. split; [|eauto].
  intros (rs' & R' & S). now rewrite (wire_records_unique _ _ _ R R').
Qed.

(** Failure is an error. *)
Lemma Unmarshal_err : forall P id b v, wt E (TStruct id) v ->
  (forall v' rs, wire_records b rs -> ~ steps E 1000 id rs (drop_unknown E id v) v') ->
  exists v' e, Unmarshal E P b (APtr id (Some v)) = DErr v' e.
Proof.
  intros P id b v W H. destruct (Unmarshal_total P id b v W) as [(v' & X & _)|X]; [|exact X].
  apply Unmarshal_steps in X as (rs & R & S); [|assumption]. now apply H in S.
Qed.

(** ** C10 *)
Lemma truncated : forall P id v rs r p q, wt E (TStruct id) v -> Forall wf_wrec rs -> wf_wrec r ->
  w_raw r = p ++ q -> p <> [] -> q <> [] ->
  exists v' e, Unmarshal E P (concat (map w_raw rs) ++ p) (APtr id (Some v)) = DErr v' e.
Proof.
  intros P id v rs r p q W F FR ER NP NQ. apply Unmarshal_err; [assumption|].
  intros v' rs' R S. apply wire_records_split in R as (rs2 & -> & F2 & EP); [|assumption].
  destruct rs2 as [|r2 rs2]; [now cbn in EP|]. inversion F2; subst. cbn [map concat] in ER.
  rewrite <- app_assoc in ER. rewrite <- (app_nil_r (w_raw r)) in ER.
  apply wrec_prefix_unique in ER as [_ X]; auto. symmetry in X. apply app_eq_nil in X as [_ X]. contradiction.
Qed.

(** ** Slots *)
Lemma steps_struct : forall D id rs s u v', steps E D id rs (VStruct s u) v' -> exists s' u', v' = VStruct s' u'.
Proof.
  intros D id rs s u v' S. remember (VStruct s u) as v eqn:EV. revert s u EV.
  induction S as [v|r rs v v1 v' ST S IH]; intros s u ->; [eauto|].
  inversion ST; subst; eapply IH; reflexivity.
Qed.

Lemma upd_nth_same : forall {A} (l : list A) n x, (n < length l)%nat -> nth_error (upd_nth n x l) n = Some x.
Proof. intros A l. induction l as [|a l IH]; intros [|n] x H; cbn in *; try lia; auto. apply IH. lia. Qed.
Lemma upd_nth_other : forall {A} (l : list A) n m x, n <> m -> nth_error (upd_nth n x l) m = nth_error l m.
Proof. intros A l. induction l as [|a l IH]; intros [|n] [|m] x H; cbn; auto; try congruence. Qed.
Lemma upd_nth_comm : forall {A} (l : list A) n m x y, n <> m -> upd_nth n x (upd_nth m y l) = upd_nth m y (upd_nth n x l).
Proof. intros A l. induction l as [|a l IH]; intros [|n] [|m] x y H; cbn; auto; try congruence. f_equal. apply IH. congruence. Qed.

Lemma touches_known : forall id r i, touches E id r i -> known E id r = true.
Proof. intros id r i (f & HI & HN & _). apply known_true. eauto. Qed.
Lemma touches_fun : forall id r i j, touches E id r i -> touches E id r j -> i = j.
Proof.
  intros id r i j (f & Hf & Nf & <-) (g & Hg & Ng & <-). f_equal. eapply (wf_same_num E anyQ WF id); congruence.
Qed.

Lemma step_other : forall D id r s u s' u' i, step E D id r (VStruct s u) (VStruct s' u') -> ~ touches E id r i ->
  nth_error s' i = nth_error s i.
Proof.
  intros D id r s u s' u' i S NT. inversion S; subst; [reflexivity|].
  apply upd_nth_other. intro. subst. apply NT. exists f. auto.
Qed.
Lemma step_same : forall D id r s u s' u' f, step E D id r (VStruct s u) (VStruct s' u') ->
  In f (sd_fields (E id)) -> field_num f = w_num r ->
  exists x x', nth_error s (f_slot f) = Some x /\ nth_error s' (f_slot f) = Some x' /\ merges E D f (w_typ r) (w_data r) x x'.
Proof.
  intros D id r s u s' u' f S HI HN. inversion S; subst.
  - match goal with K : known _ _ _ = false |- _ => rewrite known_false in K; now apply K in HI end.
  - match goal with HI' : In ?g _, HN' : field_num ?g = _ |- _ =>
      assert (g = f) by (eapply (wf_same_num E anyQ WF id); congruence); subst g end.
    exists slot, slot'. repeat split; auto. apply upd_nth_same. apply nth_error_Some. congruence.
Qed.

(** ** C12 *)
Lemma steps_other : forall D id rs s u s' u' i, steps E D id rs (VStruct s u) (VStruct s' u') ->
  (forall r, In r rs -> ~ touches E id r i) -> nth_error s' i = nth_error s i.
Proof.
  intros D id rs. induction rs as [|r rs IH]; intros s u s' u' i S NT; inversion S; subst; [reflexivity|].
  match goal with ST : step _ _ _ _ _ ?v |- _ => assert (exists s1 u1, v = VStruct s1 u1) as (s1 & u1 & ->)
    by (inversion ST; subst; eauto) end.
  erewrite IH; [|eassumption|intros; apply NT; now right]. eapply step_other; [eassumption|]. apply NT. now left.
Qed.

Lemma steps_app : forall D id rs1 rs2 v v', steps E D id (rs1 ++ rs2) v v' <->
  exists v1, steps E D id rs1 v v1 /\ steps E D id rs2 v1 v'.
Proof.
  intros D id rs1. induction rs1 as [|r rs1 IH]; intros rs2 v v'; cbn [app]; split.
  - intro S. exists v. split; [constructor|assumption].
  - intros (v1 & S1 & S2). inversion S1; subst. assumption.
  - intro S. inversion S; subst. match goal with H : steps _ _ _ (_ ++ _) _ _ |- _ => apply IH in H as (v2 & S1 & S2) end.
    exists v2. split; [econstructor; eassumption|assumption].
  - intros (v1 & S1 & S2). inversion S1; subst. econstructor; [eassumption|]. apply IH. eauto.
Qed.

(** The last record concerning a slot decides. *)
Lemma steps_last : forall D id rs1 r rs2 s u s' u' f, steps E D id (rs1 ++ r :: rs2) (VStruct s u) (VStruct s' u') ->
  In f (sd_fields (E id)) -> field_num f = w_num r -> (forall r', In r' rs2 -> ~ touches E id r' (f_slot f)) ->
  exists x x', nth_error s' (f_slot f) = Some x' /\ merges E D f (w_typ r) (w_data r) x x'.
Proof.
  intros D id rs1 r rs2 s u s' u' f S HI HN NT. apply steps_app in S as (v1 & S1 & S2).
  apply steps_struct in S1 as (s1 & u1 & ->). inversion S2 as [|? ? ? v2 ? ST S3]; subst.
  assert (exists s2 u2, v2 = VStruct s2 u2) as (s2 & u2 & ->) by (inversion ST; subst; eauto).
  destruct (step_same _ _ _ _ _ _ _ f ST HI HN) as (x & x' & _ & N2 & M).
  exists x, x'. split; [|exact M]. erewrite steps_other; eassumption.
Qed.
End Facts.
