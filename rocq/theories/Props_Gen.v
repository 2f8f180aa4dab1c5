(** Property theorems about the code generator: struct tags, Go types and acceptance of
    generated messages by the runtime. *)
From Coq Require Import Strings.String Init.Byte Lia.
From Verif Require Import Base Wire Coder MapTables Value Desc MsgSpec Encoder Sizer Decoder GoStr TagParse Parse StrFacts TagSpec
  ParseProofs SampleGo GenField GenSpec GenFieldProofs GenMsgProofs Props_Decode.
Import StringSyntax.
Open Scope N_scope.

Lemma unquote_id : unquotes (fun s => Some s).
Proof. intros s _. reflexivity. Qed.

Ltac ident_ex := split; [discriminate|]; repeat (apply Forall_cons; [vm_compute; auto; fail|]); apply Forall_nil.

Ltac given_ex := intros v Q; repeat match goal with
  | H : _ \/ _ |- _ => destruct H
  | H : given (_ :: _) _ _ |- _ => destruct H
  | H : In _ [] |- _ => destruct H
  | H : In _ (_ :: _) |- _ => destruct H
  | H : given [] _ _ |- _ => destruct H
  | H : False |- _ => destruct H
  | H : (_, _) = (_, _) |- _ => vm_compute in H; first [discriminate H | injection H as <-]
  end; vm_compute; auto; fail.

(** C44.  [FieldGen U c f] is the Go struct field generated for the declaration [f], as
    reflection shows it to the runtime ([U] is strconv.Unquote, [GenSpec.unquotes] all that
    is used of it); [packed_declared], [wire_encoding] and [legal_field] (GenSpec.v) say
    what a declaration means. *)

(** False of the code for proto3 fields that say packed = false: they are generated and
    encoded as packed. *)
Theorem C44_refuted : exists c f, legal_field c f /\ ~ packed_declared c f /\
  forall U, unquotes U -> option_map p_packed (parseStructTag (gf_tag (FieldGen U c f))) = Some true.
Proof.
  exists (mkC Proto3 [] [] [] []),
    (mkPF (bs "x") None (PScalar PInt32) 1 true false false [(bs "packed", bs "false")] [] None).
  split; [|split].
  - split; cbn; try (intros; discriminate); try lia.
    all: first [ident_ex | given_ex | split; repeat constructor; intros []].
  - intros (_ & _ & H). apply H. left. reflexivity.
  - intros U HU. destruct (gen_tags U (mkC Proto3 [] [] [] []) (mkPF (bs "x") None (PScalar PInt32) 1 true false false [(bs "packed", bs "false")] [] None) HU) as (-> & _).
    + ident_ex.
    + cbn. lia.
    + reflexivity.
Qed.
Print Assumptions C44_refuted.

(** Everything else is read back as declared. *)
Theorem C44_tags_partial : forall U c f, unquotes U -> legal_field c f ->
  (c_edition c = Proto3 -> ~ given (pf_opts f) option_packed (bs "false")) ->
  exists p, parseStructTag (gf_tag (FieldGen U c f)) = Some p /\
    p_id p = pf_num f /\
    p_tag p = match pf_kt f with Some _ => TagBytes | None => wire_encoding (pf_ty f) end /\
    (p_rep p = true <-> pf_rep f = true \/ is_map_field f) /\
    (p_req p = true <-> pf_req f = true) /\
    (p_packed p = true <-> packed_declared c f) /\
    (forall k, pf_kt f = Some k ->
       parseKVTag (gf_key (FieldGen U c f)) = Some (wire_encoding (PScalar k)) /\
       parseKVTag (gf_val (FieldGen U c f)) = Some (wire_encoding (pf_ty f))).
Proof.
  intros U c f HU L P3. pose proof (lf_num _ _ L) as R.
  destruct (gen_tags U c f HU (lf_name _ _ L)) as (A & B & _); [lia|].
  eexists. split; [exact A|]. cbn [p_id p_tag p_rep p_req p_packed].
  split; [reflexivity|]. split; [unfold main_enc, pf_is_map; destruct (pf_kt f); reflexivity|].
  unfold is_map_field.
  split; [|split; [|split; [|exact B]]].
  - rewrite label_rep. unfold pf_is_map. rewrite orb_true_iff. destruct (pf_kt f); intuition congruence.
  - unfold pf_label, pf_is_map. destruct (pf_kt f) as [k|] eqn:K.
    + destruct (lf_map _ _ L _ K) as (_ & _ & Q & _). rewrite orb_true_r. intuition congruence.
    + destruct (pf_rep f) eqn:RP; cbn [orb].
      * destruct (lf_label _ _ L) as [Q _]. destruct (Q RP). intuition congruence.
      * destruct (pf_req f); intuition congruence.
  - destruct (pf_kt f) as [k|] eqn:K.
    + destruct (lf_map _ _ L _ K) as (_ & Q & _). unfold IsPackedEncoding, packed_declared, pf_is_map. rewrite K, Q. cbn.
      intuition discriminate.
    + unfold pf_is_map. rewrite K, orb_false_r. now apply packed_spec.
Qed.
Print Assumptions C44_tags_partial.

(** A sample file: edition 2023 with a file option, a map, a oneof, a list. *)
Definition ex_ctx : pctx :=
  mkC Edition2023 [(f_repeated_field_encoding, bs "EXPANDED")] [] [] [bs "unknown_fields"].
Definition ex_fields : list pfd :=
  [mkPF (bs "ids") None (PScalar PSint64) 5 true false false [(f_repeated_field_encoding, bs "PACKED")] [] None;
   mkPF (bs "email") None (PScalar PString) 3 false false false [] [] (Some 0%nat);
   mkPF (bs "attrs") (Some PString) (PMsg 7) 536870911 false false false [] [] None;
   mkPF (bs "phone") None (PMsg 7) 4 false false false [] [] (Some 0%nat);
   mkPF (bs "kind") None PEnum 1 false false false [(f_field_presence, bs "IMPLICIT")] [] None;
   mkPF (bs "raw") None (PScalar PFixed32) 2 true false false [] [] None].
Definition ex_msg : pmsg := mkPM ex_fields [bs "contact_info"].

Lemma ex_legal : legal_message ex_ctx ex_msg.
Proof.
  split.
  - repeat (apply Forall_cons; [|]); [..|apply Forall_nil]; (split; cbn -[bs f_repeated_field_encoding f_field_presence option_packed];
      [ident_ex | lia | try (split; intros; discriminate); auto | .. ];
      try (intros; discriminate); try (intros ? Q; injection Q as <-; cbn; auto; fail);
      try (split; repeat constructor; cbn; intuition discriminate)).
    all: try given_ex.
  - repeat constructor; cbn; intuition discriminate.
  - intros f o I Q. repeat (destruct I as [<-|I]; [cbn in Q; first [discriminate Q | injection Q as <-; cbn; lia]|]). destruct I.
  - apply Forall_cons; [ident_ex|apply Forall_nil].
Qed.
Example C44_ex : legal_field ex_ctx (nth 0 ex_fields (mkPF [] None PEnum 0 false false false [] [] None)) /\
  packed_declared ex_ctx (nth 0 ex_fields (mkPF [] None PEnum 0 false false false [] [] None)) /\
  FieldStructTag ex_ctx (nth 2 ex_fields (mkPF [] None PEnum 0 false false false [] [] None)) =
  bs "protobuf:""bytes,536870911,rep,name=attrs"" json:""attrs,omitempty"" protobuf_key:""bytes,1,opt,name=key"" protobuf_val:""bytes,2,opt,name=value""".
Proof.
  split; [|split].
  - pose proof (lm_fields _ _ ex_legal) as F. inversion F; subst. assumption.
  - split; [reflexivity|]. split; [exact Logic.I|]. left. left. reflexivity.
  - vm_compute. reflexivity.
Qed.

(** C57.  The Go type of a generated field. *)
(** False of the code for a field of edition 2023 with field_presence = LEGACY_REQUIRED: it
    becomes a plain value, that is, it loses its presence. *)
Theorem C57_refuted : exists c f, legal_field c f /\ explicit_presence c f /\ pf_one f = None /\ ~ no_pointer c f /\
  pf_ty f = PScalar PInt32 /\ pf_rep f = false /\ pf_kt f = None /\ GoTypeName c f = TScalar Int32.
Proof.
  exists (mkC Edition2023 [] [] [] []),
    (mkPF (bs "x") None (PScalar PInt32) 1 false false false [(f_field_presence, bs "LEGACY_REQUIRED")] [] None).
  split; [|split; [|split; [|split; [|repeat split]]]].
  - split; cbn -[bs]; try (intros; discriminate); try lia.
    all: first [ident_ex | given_ex | split; repeat constructor; intros []].
  - right. cbn. split; [|left; eexists; left; reflexivity]. intros [H|[]]. vm_compute in H. discriminate.
  - reflexivity.
  - intros [[]|[[]|[H|[]]]]. vm_compute in H. discriminate.
Qed.
Print Assumptions C57_refuted.
Theorem C57_types_partial : forall U c f, legal_field c f ->
  (c_edition c = Edition2023 -> ~ given (pf_opts f) f_field_presence (bs "LEGACY_REQUIRED")) ->
  go_field c f (gf_type (FieldGen U c f)).
Proof. intros U c f. exact (GoTypeName_spec c f). Qed.
Print Assumptions C57_types_partial.
(** [go_field] leaves one type. *)
Theorem C57_unique : forall c f t t', go_field c f t -> go_field c f t' -> t = t'.
Proof.
  assert (GE : forall c f t t', go_elem c f t -> go_elem c f t' -> t = t').
  { intros c f t t' A B. inversion A; inversion B; try congruence; subst; tauto. }
  intros c f t t' A B.
  destruct A as [k t K A|t K R A|t K R A O NP EP NM NB|t K R A X];
    destruct B as [k' t' K' B|t' K' R' B|t' K' R' B O' NP' EP' NM' NB'|t' K' R' B X']; try congruence;
    try (assert (t = t') by eauto; subst; congruence); exfalso.
  - destruct X' as [X|[X|[X|[(id & X)|X]]]]; try tauto; try congruence; eauto.
  - destruct X as [X|[X|[X|[(id & X)|X]]]]; try tauto; try congruence; eauto.
Qed.
Print Assumptions C57_unique.
Example C57_ex : legal_field ex_ctx (nth 3 ex_fields (mkPF [] None PEnum 0 false false false [] [] None)) /\
  map (GoTypeName ex_ctx) ex_fields =
  [TSlice (TScalar Int64); TString; TMap TString (TPtr (TStruct 7)); TPtr (TStruct 7); TScalar Int32; TSlice (TScalar Uint32)].
Proof.
  split; [|vm_compute; reflexivity].
  pose proof (lm_fields _ _ ex_legal) as F. rewrite Forall_forall in F. apply F. cbn. auto.
Qed.

(** C56.  Every legal message is accepted by the runtime, with one field description per
    declared field, and what Marshal, Size and Unmarshal rely on ([wf_sdesc], MsgSpec.v)
    holds. *)
Theorem C56_accepted : forall U E size c m, unquotes U -> legal_message c m ->
  exists s, describe (MessageGen U E size c m) = POk s /\ wf_sdesc E s /\
    let describes i f d :=
      f_id d = pf_num f /\
      f_tag d = match pf_kt f with Some _ => TagBytes | None => wire_encoding (pf_ty f) end /\
      (f_rep d = true <-> pf_rep f = true \/ is_map_field f) /\
      ((c_edition c = Proto3 -> ~ given (pf_opts f) option_packed (bs "false")) ->
       (f_packed d = true <-> packed_declared c f)) /\
      (forall k, pf_kt f = Some k -> f_ktag d = wire_encoding (PScalar k) /\ f_vtag d = wire_encoding (pf_ty f)) /\
      f_T d = GoTypeName c f /\
      f_oneof d = match pf_one f with Some _ => Some i | None => None end in
    (forall d, In d (sd_fields s) -> exists i f, nth_error (pm_fields m) i = Some f /\ describes i f d) /\
    (forall i f, nth_error (pm_fields m) i = Some f -> exists d, In d (sd_fields s) /\ describes i f d).
Proof.
  intros U E size c m HU LM. destruct (generated U c m HU LM E size) as (s & D & W & _ & A & B).
  exists s. split; [exact D|]. split; [exact W|]. cbn zeta.
  assert (R : forall i f d, legal_field c f -> result c (i, f) d ->
      f_id d = pf_num f /\
      f_tag d = match pf_kt f with Some _ => TagBytes | None => wire_encoding (pf_ty f) end /\
      (f_rep d = true <-> pf_rep f = true \/ is_map_field f) /\
      ((c_edition c = Proto3 -> ~ given (pf_opts f) option_packed (bs "false")) ->
       (f_packed d = true <-> packed_declared c f)) /\
      (forall k, pf_kt f = Some k -> f_ktag d = wire_encoding (PScalar k) /\ f_vtag d = wire_encoding (pf_ty f)) /\
      f_T d = GoTypeName c f /\
      f_oneof d = match pf_one f with Some _ => Some i | None => None end).
  { intros i f d LF (sl & ->). cbn [gen_desc f_id f_tag f_rep f_packed f_ktag f_vtag f_T f_oneof fst snd].
    assert (PK : (c_edition c = Proto3 -> ~ given (pf_opts f) option_packed (bs "false")) ->
       ((pf_rep f || pf_is_map f) && IsPackedEncoding c f = true <-> packed_declared c f)).
    { intro P3. destruct (pf_kt f) as [k|] eqn:K.
      - destruct (lf_map _ _ LF _ K) as (_ & Q & _). unfold IsPackedEncoding, packed_declared, pf_is_map.
        rewrite K, Q. cbn. intuition discriminate.
      - unfold pf_is_map at 1. rewrite K, orb_false_r. now apply packed_spec. }
    unfold main_enc, is_map_field. rewrite orb_true_iff.
    split; [reflexivity|]. split; [unfold pf_is_map; destruct (pf_kt f); reflexivity|].
    split; [unfold pf_is_map; destruct (pf_kt f); intuition congruence|]. split; [exact PK|].
    split; [intros k ->; auto|]. split; [reflexivity|]. destruct (pf_one f); reflexivity. }
  split.
  - intros d I. destruct (A d I) as (i & f & N & Q). exists i, f. split; [exact N|]. apply R; [|exact Q].
    pose proof (lm_fields _ _ LM) as LF. rewrite Forall_forall in LF. apply LF, (nth_error_In _ _ N).
  - intros i f N. destruct (B i f N) as (d & I & Q). exists d. split; [exact I|]. apply R; [|exact Q].
    pose proof (lm_fields _ _ LM) as LF. rewrite Forall_forall in LF. apply LF, (nth_error_In _ _ N).
Qed.
Print Assumptions C56_accepted.
(** Hence code generated from legal files never panics and never reads memory at a wrong
    type. *)
Theorem C56_safe : forall U C M size E, unquotes U -> (forall id, legal_message (C id) (M id)) ->
  (forall id, describe (MessageGen U E (size id) (C id) (M id)) = POk (E id)) ->
  wf_env E /\ forall P id v b, wt E (TStruct id) v ->
    ((exists s n, Marshal E (APtr id (Some v)) = Ok s /\ Size E (APtr id (Some v)) = Ok n) \/
     (Marshal E (APtr id (Some v)) = Err EMaxDepth /\ Size E (APtr id (Some v)) = Err EMaxDepth)) /\
    ((exists v', Unmarshal E P b (APtr id (Some v)) = DOk v' tt /\ wt E (TStruct id) v') \/
     (exists v' e, Unmarshal E P b (APtr id (Some v)) = DErr v' e)).
Proof.
  intros U C M size E HU LM H.
  assert (W : wf_env E).
  { intro id. destruct (generated U (C id) (M id) HU (LM id) E (size id)) as (s & D & W & _). rewrite H in D.
    injection D as <-. exact W. }
  split; [exact W|]. intros P id v b T. split; [now apply Marshal_cases|now apply C09_total].
Qed.
Print Assumptions C56_safe.
Example C56_ex : legal_message ex_ctx ex_msg /\
  exists E, forall id, describe (MessageGen (fun s => Some s) E 88 ex_ctx ex_msg) = POk (E id).
Proof.
  split; [exact ex_legal|].
  destruct (generated _ ex_ctx ex_msg unquote_id ex_legal (fun _ => mkS [] false 0 [] (VStruct [] None)) 88) as (s & D & _).
  exists (fun _ => s). intros _. rewrite <- D. vm_compute. reflexivity.
Qed.

(** C60.  The runtime keeps the unknown fields of a generated message exactly when the
    directives and options of the schema ask for it ([keeps_unknown], GenSpec.v). *)
Theorem C60_unknown : forall U E size c m s, unquotes U -> legal_message c m ->
  ~ (on (c_msgdirs c) /\ off (c_msgdirs c)) -> ~ (on (c_dirs c) /\ off (c_dirs c)) ->
  NoDup (map fst (c_msgoptions c)) -> NoDup (map fst (c_options c)) ->
  describe (MessageGen U E size c m) = POk s ->
  (sd_unknown s = true <-> keeps_unknown c).
Proof.
  intros U E size c m s HU LM D1 D2 N1 N2 D.
  destruct (generated U c m HU LM E size) as (s' & D' & _ & Q & _). rewrite D in D'. injection D' as <-.
  rewrite Q. now apply unknown_spec.
Qed.
Print Assumptions C60_unknown.
(** The message's directive wins over the file's, and any directive over the options. *)
Example C60_ex :
  let c md fd mo fo := mkC Proto3 fo fd mo md in
  let y := bs "unknown_fields" in let n := bs "no_unknown_fields" in
  let g := bs "(gogoproto.goproto_unrecognized)" in let ga := bs "(gogoproto.goproto_unrecognized_all)" in
  map genUnknownFields
    [c [] [] [] []; c [y] [n] [] []; c [n] [y] [] []; c [] [y] [] []; c [] [n] [(g, bs "true")] [];
     c [] [] [(g, bs "true")] []; c [] [] [(g, bs "false")] [(ga, bs "true")]; c [] [] [] [(ga, bs "true")]]
  = [false; true; false; true; false; true; false; true] /\
  legal_message (c [y] [n] [] []) (mkPM [] []).
Proof.
  split; [vm_compute; reflexivity|]. split; [constructor|constructor|intros f o []|constructor].
Qed.
