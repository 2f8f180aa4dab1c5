(** Property theorems about decoding.  The specification is DecSpec: [wire_records] (the
    input as a sequence of records), [step]/[steps] (the effect of one record / of a
    sequence of records on a Go struct), [merges] and [reads] (the effect on one field).
    [pool] is an arbitrary content of the pools of temporaries. *)
From Verif Require Import Base Wire WireSpec Value Desc MsgSpec Encoder Decoder DecSpec DecFacts DecFacts2 Sample SampleDec.
From Coq Require Import Init.Byte Lia.
Open Scope N_scope.

(** C05.  Unmarshal succeeds with [v'] iff the input is a sequence of records and folding
    their effects over the target (without its stored unknown fields) gives [v'] ... *)
Theorem C05_fold_of_records : forall E, wf_env E -> forall P id b v v', wt E (TStruct id) v ->
  (Unmarshal E P b (APtr id (Some v)) = DOk v' tt <->
   exists rs, wire_records b rs /\ steps E 1000 id rs (drop_unknown E id v) v').
Proof. exact Unmarshal_steps. Qed.
Print Assumptions C05_fold_of_records.
(** ... where the split into records is unique. *)
Theorem C05_records_unique : forall b rs rs', wire_records b rs -> wire_records b rs' -> rs = rs'.
Proof. exact wire_records_unique. Qed.
Print Assumptions C05_records_unique.
Example C05_ex : wf_env sample /\ wt sample (TStruct 0) sample_val /\ wire_records sample_input sample_recs /\
  Unmarshal sample pool0 sample_input (APtr 0 (Some sample_val)) = DOk sample_result tt.
Proof. exact (conj sample_wf (conj sample_typed (conj sample_input_recs sample_decodes))). Qed.

(** C09, C29.  Unmarshal returns: with success and a fully initialised value of the type,
    or with an error.  It does not panic (slicing and indexing out of range, writes to a
    nil map and failed type switches are panics of the model) nor run out of steps. *)
Theorem C09_total : forall E, wf_env E -> forall P id b v, wt E (TStruct id) v ->
  (exists v', Unmarshal E P b (APtr id (Some v)) = DOk v' tt /\ wt E (TStruct id) v') \/
  (exists v' e, Unmarshal E P b (APtr id (Some v)) = DErr v' e).
Proof. exact Unmarshal_total. Qed.
Print Assumptions C09_total.
Theorem C29_initialised : forall E, wf_env E -> forall P id b v v', wt E (TStruct id) v ->
  Unmarshal E P b (APtr id (Some v)) = DOk v' tt -> wt E (TStruct id) v'.
Proof. exact Unmarshal_initialised. Qed.
Print Assumptions C29_initialised.
Example C29_ex : wt sample (TStruct 0) sample_result /\ ~ wt sample (TScalar Int32) VUninit.
Proof.
  split; [exact (C29_initialised sample sample_wf pool0 0 _ _ _ sample_typed sample_decodes)|].
  intros [H _]. discriminate.
Qed.

(** C50 fails: after an error a oneof member may hold memory that was never written. *)
Theorem C50_failed_refuted : exists E P id b v v' e, wf_env E /\ wt E (TStruct id) v /\
  Unmarshal E P b (APtr id (Some v)) = DErr v' e /\ ~ wt E (TStruct id) v'.
Proof.
  exists sample, pool0, 0%nat, [x38], (sd_zero sample_desc). do 2 eexists. split; [exact sample_wf|].
  split; [unfold wt; cbn; unfold num_ok; cbn; repeat split; lia|]. split; [vm_compute; reflexivity|].
  unfold wt. cbn. intros [H _]. decompose [and] H. discriminate.
Qed.
Print Assumptions C50_failed_refuted.
(** What remains true: the target is a value of its type except that memory of kinds
    allocated without clearing may be uninitialised. *)
Theorem C50_failed_partial : forall E, wf_env E -> forall P id b v v' e, wt E (TStruct id) v ->
  Unmarshal E P b (APtr id (Some v)) = DErr v' e -> wtg E (fun _ _ => True) true (TStruct id) v'.
Proof. exact Unmarshal_failed. Qed.
Print Assumptions C50_failed_partial.

(** C10.  Input cut inside a record: [rs] complete records, then a nonempty part [p] of
    the record [r]. *)
Theorem C10_truncated : forall E, wf_env E -> forall P id v rs r p q, wt E (TStruct id) v ->
  Forall wf_wrec rs -> wf_wrec r -> w_raw r = p ++ q -> p <> [] -> q <> [] ->
  exists v' e, Unmarshal E P (concat (map w_raw rs) ++ p) (APtr id (Some v)) = DErr v' e.
Proof. exact truncated. Qed.
Print Assumptions C10_truncated.
Example C10_ex : Forall wf_wrec sample_recs /\ w_raw rec_n31 = [x4a; x04; x08; x03] ++ [x10; x01] /\
  match Unmarshal sample pool0 (w_raw rec_i5 ++ [x4a; x04; x08; x03]) (APtr 0 (Some sample_val)) with
  | DErr _ e => e = ETruncated
  | _ => False
  end.
Proof. split; [apply sample_input_recs|]. split; [reflexivity|]. vm_compute. reflexivity. Qed.

(** C11.  [filter (known E id) rs] are the records of declared fields.  The others are
    stored verbatim in their order; the declared fields are as if the others were absent. *)
Theorem C11_unknown_kept : forall E, wf_env E -> forall P id b s u v' rs, wt E (TStruct id) (VStruct s u) ->
  wire_records b rs -> Unmarshal E P b (APtr id (Some (VStruct s u))) = DOk v' tt ->
  exists s' u', v' = VStruct s' u' /\
    (if sd_unknown (E id)
     then unk_bytes u' = concat (map w_raw (filter (fun r => negb (known E id r)) rs))
     else u' = u) /\
    exists u'', Unmarshal E P (concat (map w_raw (filter (known E id) rs))) (APtr id (Some (VStruct s u)))
                = DOk (VStruct s' u'') tt.
Proof. exact unknown_preserved. Qed.
Print Assumptions C11_unknown_kept.
Example C11_ex : sd_unknown sample_desc = true /\
  concat (map w_raw (filter (fun r => negb (known sample 0 r)) sample_recs)) = [x78; x07; x83; x01; x08; x01; x84; x01].
Proof. split; reflexivity. Qed.

(** C12.  [touches E id r i]: record [r] belongs to a field stored in struct field [i]. *)
Theorem C12_untouched : forall E, wf_env E -> forall P id b s u v' rs, wt E (TStruct id) (VStruct s u) ->
  wire_records b rs -> Unmarshal E P b (APtr id (Some (VStruct s u))) = DOk v' tt ->
  exists s' u', v' = VStruct s' u' /\
    forall i, (forall r, In r rs -> ~ touches E id r i) -> nth_error s' i = nth_error s i.
Proof. exact untouched. Qed.
Print Assumptions C12_untouched.
Example C12_ex : forall r, In r sample_recs -> ~ touches sample 0 r 9.
Proof.
  intros r H (f & HI & HN & HS). cbn [sample sample_desc sd_fields sample_fields In] in HI.
  repeat (destruct HI as [<-|HI]; [try discriminate HS; repeat (destruct H as [<-|H]; [discriminate HN|]); destruct H|]).
  destruct HI.
Qed.

(** C13.  [r] is the last record of the singular field [f]; the field then holds what [r]
    says, whatever it held before ([forall y]). *)
Theorem C13_last_wins : forall E, wf_env E -> forall P id b s u v' rs1 r rs2 f, wt E (TStruct id) (VStruct s u) ->
  wire_records b (rs1 ++ r :: rs2) -> Unmarshal E P b (APtr id (Some (VStruct s u))) = DOk v' tt ->
  In f (sd_fields (E id)) -> f_oneof f = None -> f_rep f = false -> by_value (f_T f) = false ->
  field_num f = w_num r -> (forall r', In r' rs2 -> w_num r' <> field_num f) ->
  exists s' u' x', v' = VStruct s' u' /\ nth_error s' (f_slot f) = Some x' /\
    forall y, reads E 1000 false (f_tag f) (f_T f) (w_typ r) (w_data r) y x'.
Proof. exact last_wins. Qed.
Print Assumptions C13_last_wins.
Example C13_ex : sample_recs = [rec_i5; rec_u15; rec_l1; rec_x3; rec_yb; rec_n31; rec_n32] ++ rec_i9 :: [rec_l2; rec_u16; rec_o; rec_p6; rec_q17] /\
  (forall r, In r [rec_l2; rec_u16; rec_o; rec_p6; rec_q17] -> w_num r <> 1) /\ exists s u, sample_result = VStruct s u /\ nth_error s 0 = Some (VNum 9).
Proof.
  split; [reflexivity|]. split; [|do 2 eexists; split; reflexivity].
  intros r H. repeat (destruct H as [<-|H]; [discriminate|]). destruct H.
Qed.

(** C14, C42.  An unpacked list: the elements already present, then one element per record
    of the field, in order, each read into a variable that is fresh (for messages stored by
    value: or an element of the spare capacity, see C14_stale_refuted).  The capacity
    is 8 (if there was none) or the previous one, doubled just until it suffices. *)
Theorem C14_appends : forall E, wf_env E -> forall P id b s u v' rs f t e sp, wt E (TStruct id) (VStruct s u) ->
  wire_records b rs -> Unmarshal E P b (APtr id (Some (VStruct s u))) = DOk v' tt ->
  In f (sd_fields (E id)) -> f_T f = TSlice t -> nth_error s (f_slot f) = Some (VSlice e sp) ->
  (forall r, In r rs -> of_field f r = true -> w_typ r <> 2 \/ f_packed f = false) ->
  exists s' u' xs sp', v' = VStruct s' u' /\ nth_error s' (f_slot f) = Some (VSlice (e ++ xs) sp') /\
    Forall2 (fun r x => exists x0, (x0 = unset E t \/ by_value t = true /\ In x0 sp) /\
               reads E 1000 false (f_tag f) t (w_typ r) (w_data r) x0 x) (filter (of_field f) rs) xs /\
    (xs <> [] -> let c := cap (VSlice e sp) in let c' := cap (VSlice (e ++ xs) sp') in
       let c0 := (if Nat.eqb c 0 then 8 else c)%nat in
       exists j, (c' = c0 * 2 ^ j /\ (0 < j -> c0 * 2 ^ (j - 1) < length (e ++ xs)))%nat).
Proof. exact repeated_appends. Qed.
Print Assumptions C14_appends.
Example C14_ex : let f := mkF 5 4 TagBytes true false TagNone TagNone (TSlice (TPtr (TStruct 1))) None in
  In f sample_fields /\ filter (of_field f) sample_recs = [rec_l1; rec_l2] /\
  exists s u s' u', sample_val = VStruct s u /\ sample_result = VStruct s' u' /\
    nth_error s 4 = Some (VSlice [VPtr (Some inner_val); VPtr None] []) /\
    nth_error s' 4 = Some (VSlice ([VPtr (Some inner_val); VPtr None] ++
      [VPtr (Some (VStruct [VNum 1; VPtr None] None)); VPtr (Some (VStruct [VNum 0; VPtr None] None))]) []).
Proof. cbv zeta. split; [cbn; auto 12|]. split; [reflexivity|]. do 4 eexists. repeat split; reflexivity. Qed.
Theorem C42_growth : forall E, wf_env E -> forall P id b s u v' rs f t e sp, wt E (TStruct id) (VStruct s u) ->
  wire_records b rs -> Unmarshal E P b (APtr id (Some (VStruct s u))) = DOk v' tt ->
  In f (sd_fields (E id)) -> f_T f = TSlice t -> nth_error s (f_slot f) = Some (VSlice e sp) ->
  (forall r, In r rs -> of_field f r = true -> w_typ r <> 2 \/ f_packed f = false) ->
  exists s' u' xs sp', v' = VStruct s' u' /\ nth_error s' (f_slot f) = Some (VSlice (e ++ xs) sp') /\
    let c := cap (VSlice e sp) in let c' := cap (VSlice (e ++ xs) sp') in let n := length (e ++ xs) in
    (c' <= Nat.max (Nat.max 8 c) (2 * n))%nat /\
    (* the number of doublings *)
    exists j, (c' = c \/ c' = (if Nat.eqb c 0 then 8 else c) * 2 ^ j)%nat /\ (j <= Nat.log2_up n)%nat.
Proof. exact growth_bound. Qed.
Print Assumptions C42_growth.

(** C15, decoding.  [r] is the last record of a member of the oneof, [f] its field and [w]
    its wrapper. *)
Theorem C15_last_member : forall E, wf_env E -> forall P id b s u v' rs1 r rs2 f w, wt E (TStruct id) (VStruct s u) ->
  wire_records b (rs1 ++ r :: rs2) -> Unmarshal E P b (APtr id (Some (VStruct s u))) = DOk v' tt ->
  In f (sd_fields (E id)) -> f_oneof f = Some w -> field_num f = w_num r ->
  (forall r', In r' rs2 -> ~ touches E id r' (f_slot f)) ->
  exists s' u' x', v' = VStruct s' u' /\ nth_error s' (f_slot f) = Some (VIface (Some (w, Some x'))) /\
    reads E 1000 false (f_tag f) (f_T f) (w_typ r) (w_data r) (unset E (f_T f)) x'.
Proof. exact oneof_last. Qed.
Print Assumptions C15_last_member.
(** C15, encoding: among the records Marshal writes (C04) at most one is of a member of the
    oneof in struct field [i]. *)
Theorem C15_one_emitted : forall E, wf_env E -> forall two d id v fs u i, wt E (TStruct id) v ->
  msg E two d id (Some v) = Some (QMsg fs u) ->
  (length (filter (fun r => existsb (fun f => match f_oneof f with Some _ => Nat.eqb (f_slot f) i | None => false end
                                    && (field_num f =? fst r)%N) (sd_fields (E id))) fs) <= 1)%nat.
Proof. exact oneof_at_most_one. Qed.
Print Assumptions C15_one_emitted.

(** C16 *)
Theorem C16_order : forall E, wf_env E -> forall P id v v' rs1 r1 r2 rs2, wt E (TStruct id) v ->
  Forall wf_wrec (rs1 ++ r1 :: r2 :: rs2) -> independent E id r1 r2 ->
  (Unmarshal E P (concat (map w_raw (rs1 ++ r1 :: r2 :: rs2))) (APtr id (Some v)) = DOk v' tt <->
   Unmarshal E P (concat (map w_raw (rs1 ++ r2 :: r1 :: rs2))) (APtr id (Some v)) = DOk v' tt).
Proof. exact order_irrelevant. Qed.
Print Assumptions C16_order.
Example C16_ex : independent sample 0 rec_l1 rec_x3 /\ ~ independent sample 0 rec_x3 rec_yb /\
  ~ independent sample 0 rec_u15 rec_u16.
Proof.
  split; [|split].
  - split; [now left|]. intros i [(f & HI & HN & HS) (g & GI & GN & GS)]. cbn [sample sample_desc sd_fields sample_fields In] in HI, GI.
    repeat (destruct HI as [<-|HI]; [try discriminate HN; repeat (destruct GI as [<-|GI]; [try discriminate GN; cbn in HS, GS; congruence|]); destruct GI|]).
    destruct HI.
  - intros [_ H]. apply (H 6%nat). split; [exists (nth 6 sample_fields (mkF 0 0 TagNone false false TagNone TagNone TOther None))|
      exists (nth 7 sample_fields (mkF 0 0 TagNone false false TagNone TagNone TOther None))]; cbn; auto 12.
  - intros [[H|H] _]; discriminate.
Qed.

(** C17.  For all results of the second call (an error on the one side is an error on the
    other by C09). *)
Theorem C17_concat : forall E, wf_env E -> forall P id b1 b2 v v1, wt E (TStruct id) v -> sd_unknown (E id) = false ->
  Unmarshal E P b1 (APtr id (Some v)) = DOk v1 tt ->
  forall v', Unmarshal E P (b1 ++ b2) (APtr id (Some v)) = DOk v' tt <->
             Unmarshal E P b2 (APtr id (Some v1)) = DOk v' tt.
Proof. exact concat_merge. Qed.
Print Assumptions C17_concat.
Example C17_ex : sd_unknown (sample 2%nat) = false /\ wt sample (TStruct 2) (sd_zero byval_desc) /\
  Unmarshal sample pool0 [x0a; x02; x08; x05; x10; x07] (APtr 2%nat (Some (sd_zero byval_desc))) =
    DOk (VStruct [VStruct [VNum 5; VPtr None] None; VNum 7] None) tt.
Proof.
  split; [reflexivity|]. split; [unfold wt; cbn; unfold num_ok; cbn; repeat split; lia|]. vm_compute. reflexivity.
Qed.

(** C35.  [es]: the entries on the wire; the map then holds for each key the value of the
    last entry with the key, or what it held before. *)
Theorem C35_last_key : forall E, wf_env E -> forall P id b s u v' rs f kt vt m, wt E (TStruct id) (VStruct s u) ->
  wire_records b rs -> Unmarshal E P b (APtr id (Some (VStruct s u))) = DOk v' tt ->
  In f (sd_fields (E id)) -> f_T f = TMap kt vt -> nth_error s (f_slot f) = Some (VMap m) ->
  exists s' u' m' es, v' = VStruct s' u' /\ nth_error s' (f_slot f) = Some (VMap m') /\
    Forall2 (is_entry E 1000 f) (filter (of_field f) rs) es /\
    forall k, lookup (entries m') k = match lookup (rev es) k with Some v => Some v | None => lookup (entries m) k end.
Proof. exact map_last_key. Qed.
Print Assumptions C35_last_key.
Example C35_ex : let f := mkF 9 7 TagBytes true false TagVarint TagVarint (TMap (TScalar Int32) (TScalar Int64)) None in
  In f sample_fields /\ filter (of_field f) sample_recs = [rec_n31; rec_n32] /\
  lookup (rev [(VNum 3, VNum 1); (VNum 3, VNum 2)]) (VNum 3) = Some (VNum 2).
Proof. cbn. split; [auto 12|]. split; reflexivity. Qed.

(** C39.  The wire type of a declared field is the one of its encoding, or LEN for a field
    declared packed. *)
Theorem C39_wire_type : forall E, wf_env E -> forall P id b v rs r f, wt E (TStruct id) v -> wire_records b rs ->
  In r rs -> In f (sd_fields (E id)) -> field_num f = w_num r ->
  w_typ r <> tag_wtype (f_tag f) -> ~ (w_typ r = 2 /\ f_packed f = true) ->
  exists v' e, Unmarshal E P b (APtr id (Some v)) = DErr v' e.
Proof. exact wire_type_checked. Qed.
Print Assumptions C39_wire_type.
Example C39_ex : match Unmarshal sample pool0 [x0d; x01; x00; x00; x00] (APtr 0 (Some sample_val)) with
  DErr _ e => e = EWireType | _ => False end.
Proof. vm_compute. reflexivity. Qed.
