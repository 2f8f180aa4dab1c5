(** Property theorems about the memory that MarshalAppend writes (C74).  HEncoder.v is the encoder
    with every load, append and store.  Specification: MarSpec.v. *)
From Coq Require Import Lia Init.Byte.
From Verif Require Import Base Wire Value Desc MsgSpec Encoder Sample HMem HDecoder HEncoder OwnSpec OwnMem Decoder DecFacts HeapDecSpec MarSpec MarMem MarProofs Props_HeapDec.
Open Scope nat_scope.

(** What the argument points to: nothing, or a message with nothing in the spare capacity of [b] *)
Definition argument (h : mem) (b : slice) (p : option loc) (v : option val) : Prop :=
  match p, v with Some L, Some v => message_clear h b L v | None, None => True | _, _ => False end.

(** ** C74.  MarshalAppend returns the buffer with the encoding of the message behind it, although
    the message and the buffer are in one memory and the message is read while the buffer is
    written.  Of the memory that existed it writes nothing but the spare capacity of the buffer,
    also when it returns an error.  For every schema, message, buffer and every choice of
    capacities by append. *)
Theorem C74_marshal : forall E, wf_env E -> forall capf h b id p v, buffer h b -> argument h b p v ->
  match HMarshalAppend E capf h b id p with
  | HOk h' b' => MarshalAppend E (rd h b) (APtr id v) = Ok (rd h' b') /\ wrote (s_len b) h b h' b'
  | HErr h' e => MarshalAppend E (rd h b) (APtr id v) = Err e /\ exists b', wrote (s_len b) h b h' b'
  | HPanic => MarshalAppend E (rd h b) (APtr id v) = Panic
  | HFuel => False
  end.
Proof.
  intros E WF capf h b id p v B A. assert (R : ready (s_len b) h b) by (split; [exact B|lia]).
  unfold HMarshalAppend, MarshalAppend. set (d := defaultRecursionMaxDepth). clearbody d.
  assert (K : forall x, seen_opt (s_len b) h b x v ->
    match hAppendStruct E capf d id h b x false with
    | HOk h' b' => AppendStruct E d id (rd h b) v false = Ok (rd h' b') /\ wrote (s_len b) h b h' b'
    | HErr h' e => AppendStruct E d id (rd h b) v false = Err e /\ exists b', wrote (s_len b) h b h' b'
    | HPanic => AppendStruct E d id (rd h b) v false = Panic
    | HFuel => False
    end).
  { intros x S. pose proof (struct_sim E capf WF d id false _ h b x v R S) as P.
    destruct hAppendStruct as [h' b'|h' e| |], AppendStruct as [o|e'| |]; cbn in P; try contradiction; [|destruct P as (-> & P)|reflexivity]; auto.
    destruct P as [P <-]. auto. }
  destruct p as [L|], v as [v|]; cbn in A; try contradiction.
  - destruct A as (LL & x & Ld & S). rewrite Ld. apply (K (Some x) S).
  - now apply (K None).
Qed.
Print Assumptions C74_marshal.

(** The memory that MarshalAppend leaves *)
Inductive left_by (h' : mem) : hres slice -> Prop :=
| left_ok : forall b', left_by h' (HOk h' b')
| left_err : forall e, left_by h' (HErr h' e).
Lemma left_wrote : forall E, wf_env E -> forall capf h b id p v h', buffer h b -> argument h b p v ->
  left_by h' (HMarshalAppend E capf h b id p) -> exists b', wrote (s_len b) h b h' b'.
Proof.
  intros E WF capf h b id p v h' B A L. pose proof (C74_marshal E WF capf h b id p v B A) as K.
  generalize dependent (MarshalAppend E (rd h b) (APtr id v)). intros r K.
  destruct L; destruct K as [_ K]; eauto.
Qed.

(** The bytes that the caller had in the buffer stay, in the caller's slice and at the front of
    the result. *)
Theorem C74_prefix : forall E, wf_env E -> forall capf h b id p v, buffer h b -> argument h b p v ->
  (forall h', left_by h' (HMarshalAppend E capf h b id p) -> rd h' b = rd h b) /\
  (forall h' b', HMarshalAppend E capf h b id p = HOk h' b' -> exists out, rd h' b' = rd h b ++ out).
Proof.
  intros E WF capf h b id p v B A. split.
  - intros h' L. destruct (left_wrote E WF capf h b id p v h' B A L) as [b' W].
    assert (C : clear h (s_len b) b b).
    { destruct B as [BL [BC|(BA & l & HO & BC)]]; [left; lia|]. right. split; [exact BA|]. unfold bytes_of. rewrite HO. split; [lia|]. right. intros. lia. }
    apply (wrote_clear _ _ _ _ _ b B W C).
  - intros h' b' H. pose proof (C74_marshal E WF capf h b id p v B A) as K. rewrite H in K. destruct K as [_ W].
    exists (skipn (s_len b) (rd h' b')). rewrite <- (firstn_skipn (s_len b) (rd h' b')) at 1. f_equal.
    rewrite (w_prefix _ _ _ _ _ W). apply firstn_all2. rewrite (buffer_rd _ _ B). lia.
Qed.
Print Assumptions C74_prefix.

(** Every string or []byte of the program outside the spare capacity keeps its bytes, every
    variable, list and map keeps its content, and the message is what it was. *)
Theorem C74_others : forall E, wf_env E -> forall capf h b id p v h', buffer h b -> argument h b p v ->
  left_by h' (HMarshalAppend E capf h b id p) ->
  (forall s, clear h (s_len b) b s -> rd h' s = rd h s) /\
  (forall o, o < next h -> (forall l, objs h o <> OBytes l) -> objs h' o = objs h o) /\
  (forall L w, message_clear h b L w -> hload h' L = hload h L /\ exists x, hload h' L = Some x /\ sees h' (fun _ => True) x w).
Proof.
  intros E WF capf h b id p v h' B A Lf. destruct (left_wrote E WF capf h b id p v h' B A Lf) as [b' W]. split; [|split].
  - intros s C. apply (wrote_clear _ _ _ _ _ s B W C).
  - intros o Lo NB. pose proof (wrote_cells _ _ _ _ _ o B W Lo) as K. destruct (objs h o) as [l|l|l] eqn:Eo; auto. now elim (NB l).
  - intros L w (LL & x & Ld & S). pose proof (wrote_load _ _ _ _ _ L x B W LL Ld) as Ld'. split; [congruence|]. exists x. split; [exact Ld'|].
    apply (proj1 (wrote_sees_all _ _ _ _ _ B W)) in S. eapply sees_any. exact S.
Qed.
Print Assumptions C74_others.

(** A full buffer, an empty one without capacity and nil: nothing that existed is written.  So
    Marshal writes nothing but new memory, and its result shares nothing with anything. *)
Theorem C74_new : forall E, wf_env E -> forall capf h b id p v h', buffer h b -> s_len b = s_cap b -> argument h b p v ->
  left_by h' (HMarshalAppend E capf h b id p) -> forall o, o < next h -> objs h' o = objs h o.
Proof.
  intros E WF capf h b id p v h' B F A Lf o Lo. destruct (left_wrote E WF capf h b id p v h' B A Lf) as [b' W].
  destruct (Nat.eq_dec o (s_arr b)) as [->|D]; [|now apply (w_old _ _ _ _ _ W); [|left]].
  destruct (Nat.eq_dec (s_cap b) 0) as [C|C]; [now apply (w_old _ _ _ _ _ W); [|right]|].
  destruct B as [BL [BC|(BA & l & HO & BC)]]; [contradiction|]. destruct (w_buf _ _ _ _ _ W l ltac:(lia) HO) as (l' & HO' & Ln & Nt).
  rewrite HO', HO. f_equal. apply nth_error_ext. intro i. apply Nt. lia.
Qed.
Print Assumptions C74_new.
Theorem C74_Marshal : forall E, wf_env E -> forall capf h id L x v, l_obj L < next h -> hload h L = Some x -> sees h (valid_bytes h) x v ->
  match HMarshal E capf h id (Some L) with
  | HOk h' b' => Marshal E (APtr id (Some v)) = Ok (rd h' b') /\ (forall o, o < next h -> objs h' o = objs h o) /\
      (s_len b' = 0 \/ next h <= s_arr b')
  | HErr h' e => Marshal E (APtr id (Some v)) = Err e /\ (forall o, o < next h -> objs h' o = objs h o)
  | HPanic => Marshal E (APtr id (Some v)) = Panic
  | HFuel => False
  end.
Proof.
  intros E WF capf h id L x v LL Ld S. assert (B : buffer h nil_slice) by (split; [cbn; lia|now left]).
  assert (A : argument h nil_slice (Some L) (Some v)).
  { split; [exact LL|]. exists x. split; [exact Ld|]. eapply sees_weaken; [|exact S]. intros s [Z|(V1 & V2)]; [now left|right].
    split; [exact V1|]. split; [exact V2|]. right. cbn. lia. }
  pose proof (C74_marshal E WF capf h nil_slice id (Some L) (Some v) B A) as K.
  pose proof (fun h' => C74_new E WF capf h nil_slice id (Some L) (Some v) h' B eq_refl A) as Q.
  unfold HMarshal, Marshal. change (rd h nil_slice) with (@nil byte) in K.
  generalize dependent (MarshalAppend E [] (APtr id (Some v))). intros r K.
  destruct (HMarshalAppend E capf h nil_slice id (Some L)) as [h' b'|h' e| |]; auto.
  - destruct K as [-> W]. split; [reflexivity|]. split; [apply Q; constructor|].
    destruct (w_where _ _ _ _ _ W) as [(_ & _ & C)|(N & _)]; [left|now right]. destruct (w_ok _ _ _ _ _ W) as [Z _]. cbn in C. lia.
  - destruct K as [-> W]. split; [reflexivity|]. apply Q. constructor.
Qed.
Print Assumptions C74_Marshal.

(** A decoded message is clear of the array it was decoded from: the input buffer can be used for
    the output, from its first byte on.  (The message before: one that does not refer to that
    array, e.g. a new one.) *)
Theorem C74_reuse : forall E, wf_env E -> forall capf HP TP h A W L v b id h', message_at h A W L v -> input_at h W L b -> ~ A (s_arr b) ->
  returned h' (HUnmarshal E capf HP h b id L) ->
  exists v', value_of (Unmarshal E TP (rd h b) (APtr id (Some v))) = Some v' /\
    forall c, s_arr c = s_arr b -> buffer h' c -> message_clear h' c L v' /\
      forall capf2 h2 c2, HMarshalAppend E capf2 h' c id (Some L) = HOk h2 c2 ->
        MarshalAppend E (rd h' c) (APtr id (Some v')) = Ok (rd h2 c2).
Proof.
  intros E WF capf HP TP h A W L v b id h' M IN NA R.
  destruct (C70_became E WF capf HP TP h A W L v b id h' M IN R) as (v' & A' & W' & Ev & M' & N & F & _ & FW & FA).
  exists v'. split; [exact Ev|]. intros c Ec B.
  assert (MC : message_clear h' c L v').
  { destruct M' as [(x & Ld & O) _ MW MA ML]. split; [exact ML|]. exists x. split; [exact Ld|].
    set (A2 := fun o => A' o \/ In o W').
    assert (RD : reads h' A2 x v').
    { apply (proj1 (owns_reads_all h' A' A2 (fun o Ho => or_introl Ho)) W'); [exact O|]. intros o Ho. now right. }
    refine (proj1 (reads_sees_all h' A2 (s_len c) c _) x v' RD). destruct IN as [I1 I2 I3]. rewrite Ec.
    intros o [Ho|Ho]; [destruct (MA _ Ho) as [K _]|destruct (MW _ Ho) as (_ & K & _)]; (split; [exact K|]); intros ->.
    - destruct (FA _ Ho) as [Z|[Z|Z]]; [auto|apply I3; now right|lia].
    - destruct (FW _ Ho) as [Z|Z]; [apply I3; now right|lia]. }
  split; [exact MC|]. intros capf2 h2 c2 H.
  pose proof (C74_marshal E WF capf2 h' c id (Some L) (Some v') B MC) as K. rewrite H in K. apply K.
Qed.
Print Assumptions C74_reuse.

(** The condition on the spare capacity is needed: appending a message to buf[:0] whose string is
    buf[1:3] overwrites the string before it is copied. *)
Definition over_mem : mem := mkMem 2 (fun o => match o with
  | 0 => OBytes (repeat x61 16)
  | _ => OCells [MStruct [MNum 0; MStr (mkSl 0 1 2 2); MPtr None; MSlice nil_slice; MSlice nil_slice; MMap None; MIface None; MMap None; MSlice nil_slice; HMem.MBytes None] None]
  end).
Theorem C74_overlap_refuted : exists h' b',
  HMarshalAppend sample (fun n => n) over_mem (mkSl 0 0 0 16) 0 (Some (cell 1)) = HOk h' b' /\
  rd h' b' = [x12; x02; x02; x61] /\
  exists x v, hload over_mem (cell 1) = Some x /\ sees over_mem (fun _ => True) x v /\
    MarshalAppend sample [] (APtr 0 (Some v)) = Ok [x12; x02; x61; x61].
Proof.
  eexists. eexists. split; [vm_compute; reflexivity|]. split; [vm_compute; reflexivity|].
  eexists. eexists. split; [reflexivity|]. split.
  - apply sees_struct; [|constructor]. repeat first [apply sees_cons|apply sees_nil]; try (constructor; auto; fail); constructor; reflexivity.
  - vm_compute. reflexivity.
Qed.
Print Assumptions C74_overlap_refuted.

(** A buffer with three bytes in use and room for two, and a message whose string, bytes and list
    lie in other objects and, in part, in the used part of the buffer: the result moves to a
    new array. *)
Definition mar_mem : mem := mkMem 4 (fun o => match o with
  | 0 => OBytes [x61; x62; x63; x00; x00]
  | 1 => OBytes (repeat x7a 200)
  | 2 => OCells [MNum 1; MNum 300]
  | _ => OCells [MStruct [MNum 5; MStr (mkSl 0 1 2 4); MPtr None; MSlice (mkSl 2 0 2 2); MSlice nil_slice; MMap None; MIface None; MMap None; MSlice nil_slice;
      HMem.MBytes (Some (mkSl 1 50 150 150))] None]
  end).
Definition mar_buf : slice := mkSl 0 0 3 5.
Example C74_ex : buffer mar_mem mar_buf /\
  (exists v, argument mar_mem mar_buf (Some (cell 3)) (Some v)) /\
  exists h' b', HMarshalAppend sample (fun n => n) mar_mem mar_buf 0 (Some (cell 3)) = HOk h' b' /\
    rd h' b' = [x61; x62; x63] ++ [x08; x05; x12; x02; x62; x63; x22; x03; x01; xac; x02; x82; x7d; x96; x01] ++ repeat x7a 150 /\
    objs h' 0 = OBytes [x61; x62; x63; x08; x05] /\ 4 <= s_arr b'.
Proof.
  split; [|split].
  - split; [cbn; lia|]. right. split; [cbn; lia|]. eexists. split; [reflexivity|]. cbn. lia.
  - eexists. split; [cbn; lia|]. eexists. split; [reflexivity|].
    apply sees_struct; [|constructor].
    apply sees_cons; [constructor|]. apply sees_cons; [constructor; right; cbn; repeat split; try lia; right; intros; lia|].
    apply sees_cons; [constructor|]. apply sees_cons.
    { apply sees_slice with (xs := [MNum 1; MNum 300]) (ys := []) (es := [VNum 1; VNum 300]) (sp := []).
      - cbn. lia.
      - cbn. lia.
      - exists [], []. repeat split.
      - repeat constructor.
      - constructor. }
    apply sees_cons; [now constructor|]. apply sees_cons; [constructor|]. apply sees_cons; [constructor|]. apply sees_cons; [constructor|].
    apply sees_cons; [now constructor|]. apply sees_cons; [|constructor].
    constructor. right. cbn. repeat split; try lia.
  - eexists. eexists. split; [vm_compute; reflexivity|]. split; [vm_compute; reflexivity|]. split; [vm_compute; reflexivity|]. vm_compute. lia.
Qed.

(** Decoding 12 02 61 62 and 08 05 from an array and encoding the message into that array *)
Definition reuse_mem : mem := mkMem 1 (fun _ => OBytes [x12; x02; x61; x62; x08; x05]).
Definition reuse_new : mem * loc := hnew sample reuse_mem 0.
Example C74_reuse_ex :
  message_at (fst reuse_new) (fun _ => False) [] (snd reuse_new) (sd_zero (sample 0)) /\
  input_at (fst reuse_new) [] (snd reuse_new) (mkSl 0 0 6 6) /\
  exists h' h2 c2, HUnmarshal sample (fun n => n) (fun _ _ => (MUninit, MUninit)) (fst reuse_new) (mkSl 0 0 6 6) 0 (snd reuse_new) = HOk h' tt /\
    buffer h' (mkSl 0 0 0 6) /\
    HMarshalAppend sample (fun n => n) h' (mkSl 0 0 0 6) 0 (Some (snd reuse_new)) = HOk h2 c2 /\
    rd h2 c2 = [x08; x05; x12; x02; x61; x62] /\ objs h2 0 = OBytes [x08; x05; x12; x02; x61; x62].
Proof.
  split; [apply (C70_new sample sample_wf)|]. split; [constructor; cbn; intuition lia|].
  do 3 eexists. split; [vm_compute; reflexivity|]. split.
  - split; [cbn; lia|]. right. split; [cbn; lia|]. eexists. split; [reflexivity|]. cbn. lia.
  - split; [vm_compute; reflexivity|]. split; vm_compute; reflexivity.
Qed.
