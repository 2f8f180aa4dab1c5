(** Property theorems about Unmarshal on memory (C70): HDecoder.v is the decoder with every
    allocation, load and store; Decoder.v the decoder on values.  Specification:
    HeapDecSpec.v, OwnSpec.v. *)
From Coq Require Import Lia Init.Byte.
From Verif Require Import Base Value Desc Decoder MsgSpec Encoder DecFacts Sample SampleDec HMem HDecoder OwnSpec HeapDecSpec OwnMem OwnPost OwnDec OwnDec4.
Open Scope nat_scope.

Lemma message_pre : forall h A W L v b, message_at h A W L v -> input_at h W L b -> exists x, pre h A W x v L b [].
Proof.
  intros h A W L v b [(x & Ld & O) ND HW HA HL] [B1 B2 B3]. exists x. constructor; auto.
  - intros o Ho. destruct (HW _ Ho) as (? & ? & ?). repeat split; auto. intros ->. apply B3. now right.
  - split; [exact HL|]. intro Z. apply B3. now left.
  - intros o [].
Qed.
Lemma upd_nth_other : forall {X} (l : list X) n m x, n <> m -> nth_error (upd_nth n x l) m = nth_error l m.
Proof. induction l as [|a l IH]; intros [|n] [|m] x D; cbn; try reflexivity; [congruence|]. apply IH. congruence. Qed.
Lemma diverge_get : forall p q x y, diverge p q -> get_path q (put_path p y x) = get_path q x.
Proof.
  induction p as [|i p IH]; intros [|j q] x y H; cbn in *; try contradiction.
  destruct x; try reflexivity. destruct (nth_error slots i) as [z|] eqn:Ez; [|reflexivity]. cbn [get_path].
  destruct (Nat.eq_dec i j) as [<-|D].
  - rewrite (upd_nth_same _ _ _ _ Ez), Ez. apply IH. destruct H as [H|[_ H]]; [congruence|exact H].
  - rewrite upd_nth_other by congruence. reflexivity.
Qed.
Lemma apart_load : forall h L x L', apart L L' -> hload (hstore h L x) L' = hload h L'.
Proof.
  intros h L x L' H. unfold hload, hstore.
  destruct (nth_error (cells_of h (l_obj L)) (l_idx L)) as [c|] eqn:Ec; [|reflexivity].
  unfold cells_of at 1. destruct (Nat.eq_dec (l_obj L') (l_obj L)) as [Eo|D].
  - rewrite Eo, set_obj_same. destruct (Nat.eq_dec (l_idx L') (l_idx L)) as [Ei|Di].
    + rewrite Ei, (upd_nth_same _ _ _ _ Ec), Ec. apply diverge_get. destruct H as [H|[H|H]]; congruence.
    + now rewrite upd_nth_other by congruence.
  - now rewrite set_obj_other by exact D.
Qed.
Lemma post_became : forall h A W x v L b h' x' v' A' W', pre h A W x v L b [] -> post h A W L [] h' x' v' A' W' [] ->
  became h A W L h' A' W' v'.
Proof.
  intros h A W x v L b h' x' v' A' W' P Q.
  assert (P' : pre h' A' W' x' v' L b []) by (eapply pre_post; [exact P|exact Q|reflexivity|]; apply (p_b _ _ _ _ _ _ _ _ P)).
  split; [|split; [|split; [|split; [|split]]]].
  - destruct P' as [p1 p2 p3 p4 p5 p6 p7 p8]. constructor; eauto; try tauto.
    intros o Ho. destruct (p4 _ Ho) as (? & ? & ? & _). auto.
  - apply (q_next _ _ _ _ _ _ _ _ _ _ _ Q).
  - intros o Lo Ho. apply (q_frame _ _ _ _ _ _ _ _ _ _ _ Q); auto.
    + intros ->. apply Ho. now left. + intro Z. apply Ho. now right.
  - intros L' EL AP. rewrite <- (apart_load h L x' L' AP). unfold hload, cells_of. rewrite EL.
    now rewrite (q_L _ _ _ _ _ _ _ _ _ _ _ Q).
  - intros o Ho. apply (q_W _ _ _ _ _ _ _ _ _ _ _ Q) in Ho. tauto.
  - intros o Ho. apply (q_A _ _ _ _ _ _ _ _ _ _ _ Q) in Ho. tauto.
Qed.

(** ** C70.  Unmarshal on memory computes what Unmarshal on values does, for every content of
    memory, every content of the pooled temporaries [HP] and every choice of capacities by
    append [capf]; it writes only new memory and memory of the message. *)
Theorem C70_memory : forall E, wf_env E -> forall capf HP TP h A W L v b id, message_at h A W L v -> input_at h W L b ->
  match HUnmarshal E capf HP h b id L, Unmarshal E TP (rd h b) (APtr id (Some v)) with
  | HOk h' _, DOk v' _ => exists A' W', became h A W L h' A' W' v'
  | HErr h' e, DErr v' e' => e = e' /\ exists A' W', became h A W L h' A' W' v'
  | HPanic, DPanic => True
  | HFuel, DFuel => True
  | _, _ => False
  end.
Proof.
  intros E WF capf HP TP h A W L v b id M IN. destruct (message_pre _ _ _ _ _ _ M IN) as [x P].
  unfold HUnmarshal, Unmarshal. rewrite (rd_length h b) by exact (i_range _ _ _ _ IN).
  pose proof (struct_sim E WF capf (S (s_len b)) [] [] HP TP h A W x v L b id (Z.of_nat defaultRecursionMaxDepth) P) as S.
  unfold sim in S. destruct HDecodeStruct as [h' []|h' e| |], DecodeStruct as [v' []|v' e'| |]; auto.
  - destruct S as (x' & A' & W' & T' & -> & Q). exists A', W'. eapply post_became; eauto.
  - destruct S as (-> & x' & A' & W' & Q). split; [reflexivity|]. exists A', W'. eapply post_became; eauto.
Qed.
Print Assumptions C70_memory.

(** What a run of Unmarshal leaves: it returned, with or without an error. *)
Inductive returned (h' : mem) : hres unit -> Prop :=
| returned_ok : returned h' (HOk h' tt)
| returned_err : forall e, returned h' (HErr h' e).
Definition value_of (d : dres unit) : option val := match d with DOk v _ | DErr v _ => Some v | _ => None end.

(** On a message whose fields are of their types it does return. *)
Theorem C70_returns : forall E, wf_env E -> forall capf HP h A W L v b id, message_at h A W L v -> input_at h W L b ->
  wt E (TStruct id) v -> exists h', returned h' (HUnmarshal E capf HP h b id L).
Proof.
  intros E WF capf HP h A W L v b id M IN T. pose proof (C70_memory E WF capf HP pool0 h A W L v b id M IN) as C.
  destruct (Unmarshal_total E WF pool0 id (rd h b) v T) as [(v' & U & _)|(v' & e & U)]; rewrite U in C;
    destruct HUnmarshal as [h' []|h' e'| |]; try contradiction; exists h'; constructor.
Qed.
Print Assumptions C70_returns.

Lemma C70_became : forall E, wf_env E -> forall capf HP TP h A W L v b id h', message_at h A W L v -> input_at h W L b ->
  returned h' (HUnmarshal E capf HP h b id L) ->
  exists v' A' W', value_of (Unmarshal E TP (rd h b) (APtr id (Some v))) = Some v' /\ became h A W L h' A' W' v'.
Proof.
  intros E WF capf HP TP h A W L v b id h' M IN R. pose proof (C70_memory E WF capf HP TP h A W L v b id M IN) as C.
  inversion R as [Eq|e Eq]; rewrite <- Eq in C; destruct Unmarshal as [v' []|v' e'| |]; try contradiction.
  - destruct C as (A' & W' & B). exists v', A', W'. auto.
  - destruct C as (_ & A' & W' & B). exists v', A', W'. auto.
Qed.

Lemma holds_frame : forall h h' A W L v, message_at h A W L v ->
  (forall o, A o \/ In o W \/ o = l_obj L -> objs h' o = objs h o) -> holds h' L v.
Proof.
  intros h h' A W L v [(x & Ld & O) ND HW HA HL] F. exists x. split.
  - rewrite <- Ld. unfold hload, cells_of. rewrite F by auto. reflexivity.
  - assert (R : reads h (fun o => A o \/ In o W) x v) by (eapply owns_reads; [|exact O|]; intros o Ho; cbn; auto).
    apply (reads_frame h (fun o => A o \/ In o W)); [|now intros o Ho|exact R]. intros o Ho. apply F. tauto.
Qed.

(** The input can be reused: if the message did not refer to the array of the input, then
    whatever is written there afterwards, and anywhere else but in what the message refers
    to, the message stays what Unmarshal made it. *)
Theorem C70_input : forall E, wf_env E -> forall capf HP TP h A W L v b id h', message_at h A W L v -> input_at h W L b ->
  ~ A (s_arr b) -> returned h' (HUnmarshal E capf HP h b id L) ->
  exists v', value_of (Unmarshal E TP (rd h b) (APtr id (Some v))) = Some v' /\
    rd h' b = rd h b /\
    forall h2, (forall o, o <> s_arr b -> objs h2 o = objs h' o) -> holds h2 L v'.
Proof.
  intros E WF capf HP TP h A W L v b id h' M IN NA R.
  destruct (C70_became E WF capf HP TP h A W L v b id h' M IN R) as (v' & A' & W' & Ev & M' & N & F & _ & FW & FA).
  destruct IN as [I1 I2 I3]. exists v'. split; [exact Ev|]. split; [apply rd_ext; right; now apply F|].
  intros h2 H2. apply (holds_frame h' h2 A' W' L v' M'). intros o Ho. apply H2. intros ->.
  destruct Ho as [Ho|[Ho|Ho]].
  - destruct (FA _ Ho) as [Z|[Z|Z]]; [auto|apply I3; now right|lia].
  - destruct (FW _ Ho) as [Z|Z]; [apply I3; now right|lia].
  - apply I3. now left.
Qed.
Print Assumptions C70_input.

(** Other values are not changed: a value at another place that uses (through the objects
    [B]) nothing of what the message owns. *)
Theorem C70_others : forall E, wf_env E -> forall capf HP h A W L v b id h', message_at h A W L v -> input_at h W L b ->
  returned h' (HUnmarshal E capf HP h b id L) ->
  forall L' x' w B, hload h L' = Some x' -> reads h B x' w -> (forall o, B o -> o < next h /\ ~ In o (l_obj L :: W)) ->
  l_obj L' < next h -> ~ In (l_obj L') W -> apart L L' -> holds h' L' w.
Proof.
  intros E WF capf HP h A W L v b id h' M IN R L' x' w B Ld Rw HB LL' NW AP.
  destruct (C70_became E WF capf HP pool0 h A W L v b id h' M IN R) as (v' & A' & W' & Ev & M' & N & F & FL & FW & FA).
  exists x'. split.
  - rewrite <- Ld. destruct (Nat.eq_dec (l_obj L') (l_obj L)) as [Eo|D]; [now apply FL|].
    unfold hload, cells_of. rewrite F; [reflexivity|exact LL'|]. intros [Z|Z]; [now apply D|auto].
  - apply (reads_frame h B); [|now intros o Ho|exact Rw]. intros o Ho. destruct (HB _ Ho). now apply F.
Qed.
Print Assumptions C70_others.

(** A new message: new(T) *)
Definition hnew (E : env) (h : mem) (id : nat) : mem * loc :=
  let '(h', o) := halloc h (OCells [embed (sd_zero (E id))]) in (h', cell o).
Theorem C70_new : forall E, wf_env E -> forall h id,
  message_at (fst (hnew E h id)) (fun _ => False) [] (snd (hnew E h id)) (sd_zero (E id)).
Proof.
  intros E WF h id. unfold hnew. rewrite halloc_eq. cbn [fst snd]. constructor.
  - exists (embed (sd_zero (E id))). split.
    + unfold hload, cells_of. cbn [cell l_obj]. now rewrite halloc_new.
    + now apply (zero_owns E WF _ (TStruct id)).
  - constructor.
  - intros o [].
  - intros o [].
  - rewrite halloc_next. cbn. lia.
Qed.
Print Assumptions C70_new.

(** Two messages decoded one after the other into new variables, from any two inputs (the
    same one, too), share nothing: whatever is done to memory that the first refers to leaves
    the second as it is, and the other way round. *)
Theorem C70_two : forall E, wf_env E -> forall capf HP1 HP2 TP h b1 b2 id1 id2 h1 h2,
  let n1 := hnew E h id1 in
  s_arr b1 < next h -> s_off b1 + s_len b1 <= length (bytes_of h (s_arr b1)) ->
  s_arr b2 < next h -> s_off b2 + s_len b2 <= length (bytes_of h (s_arr b2)) ->
  returned h1 (HUnmarshal E capf HP1 (fst n1) b1 id1 (snd n1)) ->
  let n2 := hnew E h1 id2 in
  returned h2 (HUnmarshal E capf HP2 (fst n2) b2 id2 (snd n2)) ->
  exists v1 v2 O1 O2,
    value_of (Unmarshal E TP (rd h b1) (APtr id1 (Some (sd_zero (E id1))))) = Some v1 /\
    value_of (Unmarshal E TP (rd h b2) (APtr id2 (Some (sd_zero (E id2))))) = Some v2 /\
    (forall o, ~ (O1 o /\ O2 o)) /\ (forall o, O1 o \/ O2 o -> next h <= o) /\
    (forall h3, (forall o, O1 o -> objs h3 o = objs h2 o) -> holds h3 (snd n1) v1) /\
    (forall h3, (forall o, O2 o -> objs h3 o = objs h2 o) -> holds h3 (snd n2) v2).
Proof.
  intros E WF capf HP1 HP2 TP h b1 b2 id1 id2 h1 h2 n1 A1 V1 A2 V2 R1 n2 R2.
  pose proof (C70_new E WF h id1) as M1. fold n1 in M1.
  assert (N1 : next (fst n1) = S (next h) /\ l_obj (snd n1) = next h /\ forall o, o < next h -> objs (fst n1) o = objs h o).
  { unfold n1, hnew. rewrite halloc_eq. cbn [fst snd]. rewrite halloc_next. split; [reflexivity|]. split; [reflexivity|].
    intros. now apply halloc_old. }
  destruct N1 as (N1 & L1 & F1).
  assert (I1 : input_at (fst n1) [] (snd n1) b1).
  { constructor; [lia|unfold bytes_of; now rewrite F1|]. rewrite L1. intros [Z|[]]. lia. }
  destruct (C70_became E WF capf HP1 TP _ _ _ _ _ b1 id1 h1 M1 I1 R1) as (v1 & A1' & W1' & Ev1 & M1' & Nx1 & Fr1 & _ & FW1 & FA1).
  pose proof (C70_new E WF h1 id2) as M2. fold n2 in M2.
  assert (N2 : next (fst n2) = S (next h1) /\ l_obj (snd n2) = next h1 /\ forall o, o < next h1 -> objs (fst n2) o = objs h1 o).
  { unfold n2, hnew. rewrite halloc_eq. cbn [fst snd]. rewrite halloc_next. split; [reflexivity|]. split; [reflexivity|].
    intros. now apply halloc_old. }
  destruct N2 as (N2 & L2 & F2).
  assert (B2 : objs h1 (s_arr b2) = objs h (s_arr b2)).
  { rewrite Fr1; [now apply F1|lia|]. rewrite L1. intros [Z|[]]. lia. }
  assert (I2 : input_at (fst n2) [] (snd n2) b2).
  { constructor; [lia| |].
    - unfold bytes_of. rewrite F2, B2 by lia. exact V2.
    - rewrite L2. intros [Z|[]]. lia. }
  destruct (C70_became E WF capf HP2 TP _ _ _ _ _ b2 id2 h2 M2 I2 R2) as (v2 & A2' & W2' & Ev2 & M2' & Nx2 & Fr2 & _ & FW2 & FA2).
  exists v1, v2, (fun o => A1' o \/ In o W1' \/ o = l_obj (snd n1)), (fun o => A2' o \/ In o W2' \/ o = l_obj (snd n2)).
  assert (H1 : forall o, A1' o \/ In o W1' \/ o = l_obj (snd n1) -> next h <= o < next h1).
  { intros o [Ho|[Ho|Ho]].
    - destruct (FA1 _ Ho) as [[]|[[]|Z]]. apply (m_A _ _ _ _ _ M1') in Ho. lia.
    - destruct (FW1 _ Ho) as [[]|Z]. apply (m_W _ _ _ _ _ M1') in Ho. lia.
    - subst o. pose proof (m_L _ _ _ _ _ M1'). lia. }
  assert (H2 : forall o, A2' o \/ In o W2' \/ o = l_obj (snd n2) -> next h1 <= o).
  { intros o [Ho|[Ho|Ho]].
    - destruct (FA2 _ Ho) as [[]|[[]|Z]]. lia.
    - destruct (FW2 _ Ho) as [[]|Z]. lia.
    - lia. }
  assert (E1 : rd (fst n1) b1 = rd h b1) by (apply rd_ext; right; now apply F1).
  assert (E2 : rd (fst n2) b2 = rd h b2) by (apply rd_ext; right; rewrite F2 by lia; exact B2).
  rewrite E1 in Ev1. rewrite E2 in Ev2. split; [exact Ev1|]. split; [exact Ev2|]. split.
  { intros o [K1 K2]. apply H1 in K1. apply H2 in K2. lia. }
  split. { intros o [K|K]; [apply H1 in K|apply H2 in K]; lia. }
  split; intros h3 H3.
  - apply (holds_frame h1 h3 _ _ _ _ M1'). intros o Ho. rewrite H3 by exact Ho. apply H1 in Ho as Z.
    rewrite Fr2; [apply F2; lia|lia|]. rewrite L2. intros [Y|[]]. lia.
  - apply (holds_frame h2 h3 _ _ _ _ M2'). intros o Ho. now apply H3.
Qed.
Print Assumptions C70_two.

(** A message with a string that shares its bytes with the input, a list with room for one
    more element, a map and unknown bytes; a variable of another type; the input: i = 9, two
    elements of p, n = {8: 1}, an unknown field. *)
Definition ex_input : bytes := [x08; x09; x22; x02; x03; x04; x4a; x04; x08; x08; x10; x01; xf8; x01; x05].
Definition ex_mem : mem := mkMem 6 (fun o =>
  match o with
  | 0 => OBytes ([x61; x62] ++ ex_input)
  | 1 => OCells [MNum 77; MStruct [MNum 5; MStr (mkSl 0 0 2 2); MPtr None; MSlice (mkSl 2 0 1 2); MSlice nil_slice;
           MMap None; MIface None; MMap (Some 3); MSlice nil_slice; MBytes None] (Some (mkSl 4 0 2 8))]
  | 2 => OCells [MNum 7; MUninit]
  | 3 => OMap [(MNum 1, MNum 2)]
  | 4 => OBytes [xf8; x01; x00; x00; x00; x00; x00; x00]
  | _ => OCells [MStruct [MNum 3; MPtr None] (Some (mkSl 4 0 2 8))]
  end).
Definition ex_loc : loc := mkLoc 1 1 [].
Definition ex_val : val := VStruct [VNum 5; VStr [x61; x62]; VPtr None; VSlice [VNum 7] [VUninit]; VSlice [] [];
  VMap None; VIface None; VMap (Some [(VNum 1, VNum 2)]); VSlice [] []; VBytes None] (Some [xf8; x01]).
Definition ex_b : slice := mkSl 0 2 15 15.
Lemma ex_message : message_at ex_mem (fun o => o = 0) [2; 3; 4] ex_loc ex_val.
Proof.
  constructor.
  - eexists. split; [reflexivity|]. apply (owns_struct ex_mem (fun o => o = 0) _ _ _ _ [2; 3] [4]).
    + apply (owns_cons _ _ _ _ _ _ [] [2; 3]); [constructor; [exact Logic.I|constructor]|].
      apply (owns_cons _ _ _ _ _ _ [] [2; 3]); [constructor; [exact Logic.I|]|].
      { change [x61; x62] with (rd ex_mem (mkSl 0 0 2 2)). constructor. right. split; [reflexivity|cbn; lia]. }
      apply (owns_cons _ _ _ _ _ _ [] [2; 3]); [constructor; [exact Logic.I|constructor]|].
      apply (owns_cons _ _ _ _ _ _ [2] [3]).
      { change [2] with (s_arr (mkSl 2 0 1 2) :: []). eapply owns_slice with (xs := [MNum 7]) (ys := [MUninit]).
        - cbn. lia. - exists [], []. repeat split. - repeat constructor.
        - apply (owns_cons _ _ _ _ _ _ [] []); [constructor; [exact Logic.I|constructor]|constructor]. }
      apply (owns_cons _ _ _ _ _ _ [] [3]); [now apply owns_noslice|].
      apply (owns_cons _ _ _ _ _ _ [] [3]); [apply owns_nomap|].
      apply (owns_cons _ _ _ _ _ _ [] [3]); [constructor; [exact Logic.I|constructor]|].
      apply (owns_cons _ _ _ _ _ _ [3] []); [eapply owns_map; [reflexivity|repeat constructor]|].
      apply (owns_cons _ _ _ _ _ _ [] []); [now apply owns_noslice|].
      apply (owns_cons _ _ _ _ _ _ [] []); [constructor; [exact Logic.I|constructor]|]. constructor.
    + change [4] with [s_arr (mkSl 4 0 2 8)]. change [xf8; x01] with (rd ex_mem (mkSl 4 0 2 8)). constructor; cbn; lia.
  - repeat (constructor; [cbn; lia|]). constructor.
  - intros o [<-|[<-|[<-|[]]]]; cbn; lia.
  - intros o ->. cbn. lia.
  - cbn. lia.
Qed.
Example C70_ex : wf_env sample /\ message_at ex_mem (fun o => o = 0) [2; 3; 4] ex_loc ex_val /\
  input_at ex_mem [2; 3; 4] ex_loc ex_b /\ rd ex_mem ex_b = ex_input /\
  (exists h', HUnmarshal sample (fun n => n) (fun _ _ => (MUninit, MUninit)) ex_mem ex_b 0 ex_loc = HOk h' tt /\
     bytes_of h' 4 = [xf8; x01; x05; x00; x00; x00; x00; x00]) /\
  Unmarshal sample pool0 ex_input (APtr 0 (Some ex_val)) =
    DOk (VStruct [VNum 9; VStr [x61; x62]; VPtr None; VSlice [VNum 3; VNum 4] []; VSlice [] [];
      VMap None; VIface None; VMap (Some [(VNum 1, VNum 2); (VNum 8, VNum 1)]); VSlice [] []; VBytes None] (Some [xf8; x01; x05])) tt.
Proof.
  split; [exact sample_wf|]. split; [exact ex_message|]. split; [constructor; cbn; lia|]. split; [reflexivity|].
  split; [eexists; split; vm_compute; reflexivity|vm_compute; reflexivity].
Qed.

(** Without the ownership it fails: a value that shares the array of the unknown bytes, as a
    shallow copy of the message does, is changed (Unmarshal writes the new unknown bytes over
    the old ones). *)
Theorem C70_copied_refuted : exists E capf HP h A W L v b id h' L' w, wf_env E /\ message_at h A W L v /\ input_at h W L b /\
  HUnmarshal E capf HP h b id L = HOk h' tt /\ apart L L' /\ holds h L' w /\ ~ holds h' L' w.
Proof.
  set (h := mkMem 6 (fun o => match o with
    | 0 => OBytes [x18; x07]
    | 1 => OCells [MStruct [MNum 3; MPtr None] (Some (mkSl 4 0 2 8))]
    | 4 => OBytes [xf8; x01; x00; x00; x00; x00; x00; x00]
    | _ => OCells [MStruct [MNum 3; MPtr None] (Some (mkSl 4 0 2 8))] end)).
  exists sample, (fun n => n), (fun _ _ => (MUninit, MUninit)), h, (fun _ => False), [4], (cell 1),
    (VStruct [VNum 3; VPtr None] (Some [xf8; x01])), (mkSl 0 0 2 2), 1. eexists. exists (cell 5), (VStruct [VNum 3; VPtr None] (Some [xf8; x01])).
  split; [exact sample_wf|]. split.
  { constructor.
    - eexists. split; [reflexivity|]. apply (owns_struct _ _ _ _ _ _ [] [4]).
      + apply (owns_cons _ _ _ _ _ _ [] []); [constructor; [exact Logic.I|constructor]|].
        apply (owns_cons _ _ _ _ _ _ [] []); [constructor; [exact Logic.I|constructor]|]. constructor.
      + change [4] with [s_arr (mkSl 4 0 2 8)]. change [xf8; x01] with (rd h (mkSl 4 0 2 8)). constructor; cbn; lia.
    - repeat (constructor; [cbn; lia|]). constructor.
    - intros o [<-|[]]. cbn. intuition lia.
    - intros o [].
    - cbn. lia. }
  split; [constructor; cbn; lia|]. split; [vm_compute; reflexivity|]. split; [left; discriminate|]. split.
  - eexists. split; [reflexivity|]. change [xf8; x01] with (rd h (mkSl 4 0 2 8)). constructor; [repeat constructor|constructor; right; split; [exact Logic.I|vm_compute; lia]].
  - intros (x & Ld & R). vm_compute in Ld. injection Ld as <-. inversion R; subst.
    match goal with Hu : reads_unknown _ _ _ _ |- _ => inversion Hu end.
Qed.
Print Assumptions C70_copied_refuted.
