(** Property theorems about encoding.  The specification is MsgSpec: [wf_env] (schemas of
    generated code), [wt] (Go values of a type), [msg] (the protobuf message a Go value
    denotes), [wire] (its canonical encoding).  [sample] is the schema of Sample.v. *)
From Verif Require Import Base WireSpec Value Desc MsgSpec Encoder Sizer EncFacts Sample.
From Coq Require Import Init.Byte Sorting.Sorted.
Open Scope N_scope.

(** C02.  [v'] is the same message seen through other map iteration orders.  Lengths of
    2^63 bytes and more do not exist in Go. *)
Theorem C02_size_is_length : forall E, wf_env E -> forall id v v', wt E (TStruct id) v -> vsame v v' ->
  (forall s, Marshal E (APtr id (Some v)) = Ok s -> blen s < 2^63 ->
     Size E (APtr id (Some v')) = Ok (blen s)) /\
  (forall e, Marshal E (APtr id (Some v)) = Err e <-> Size E (APtr id (Some v')) = Err e).
Proof. exact Size_Marshal. Qed.
Print Assumptions C02_size_is_length.
Example C02_ex : wf_env sample /\ wt sample (TStruct 0) sample_val /\ vsame sample_val sample_val' /\
  exists s, Marshal sample (APtr 0 (Some sample_val)) = Ok s /\ blen s = 118 /\
    Size sample (APtr 0 (Some sample_val')) = Ok 118.
Proof.
  split; [exact sample_wf|]. split; [exact sample_typed|]. split; [exact sample_same|].
  eexists. split; [vm_compute; reflexivity|]. split; vm_compute; reflexivity.
Qed.

(** C03 *)
Theorem C03_append_keeps_prefix : forall E, wf_env E -> forall a, arg_ok E a -> forall b,
  MarshalAppend E b a = match Marshal E a with Ok s => Ok (b ++ s) | r => r end.
Proof. exact MarshalAppend_prefix. Qed.
Print Assumptions C03_append_keeps_prefix.
Example C03_ex : arg_ok sample (APtr 1 (Some inner_val)) /\
  MarshalAppend sample [x01; x02] (APtr 1 (Some inner_val)) =
  Ok [x01; x02; x08; xfb; xff; xff; xff; xff; xff; xff; xff; xff; x01; x12; x02; x08; x07; x7a; x00].
Proof. split; [exact inner_typed|vm_compute; reflexivity]. Qed.

(** C04.  Marshal writes the canonical encoding of the message that the Go value denotes
    (or reports that it nests too deep) ... *)
Theorem C04_canonical : forall E, wf_env E -> forall id p, wtp E id p ->
  match msg E false 1000 id p with
  | Some m => exists s, Marshal E (APtr id p) = Ok s /\ (blen s < 2^63 \/ blen (wire m) < 2^63 -> s = wire m)
  | None => Marshal E (APtr id p) = Err EMaxDepth
  end.
Proof. exact Marshal_wire. Qed.
Print Assumptions C04_canonical.
(** ... whose records are those of declared fields, in ascending order of field number. *)
Theorem C04_ascending : forall E, wf_env E -> forall two d id p fs u, msg E two d id p = Some (QMsg fs u) ->
  StronglySorted N.le (map fst fs) /\
  Forall (fun r => exists f, In f (sd_fields (E id)) /\ fst r = field_num f) fs.
Proof. exact msg_sorted. Qed.
Print Assumptions C04_ascending.
Example C04_ex : msg sample false 1000 1 (Some inner_val) =
    Some (QMsg [(1, QInt (2^64 - 5)); (2, QMsg [(1, QInt 7)] [])] [x7a; x00]) /\
  exists fs, msg sample false 1000 0 (Some sample_val) = Some (QMsg fs [xf8; x07; x05]) /\
    map fst fs = [1; 2; 3; 4; 5; 5; 6; 6; 8; 9; 9; 10; 2000].
Proof. split; [vm_compute; reflexivity|]. eexists. split; vm_compute; reflexivity. Qed.

(** C06, encoding: an int32 [n] (raw bits) is written as the varint of its 64-bit sign
    extension in every position of a message ([int32_position]). *)
Theorem C06_int32_positions : forall E id f n v out, wf_env E -> n < 2^32 -> int32_position n f v out ->
  sd_fields (E id) = [f] -> f_oneof f = None -> sd_slots (E id) = [f_T f] ->
  wt E (TStruct id) (VStruct [v] None) -> blen out < 2^63 ->
  Marshal E (APtr id (Some (VStruct [v] None))) = Ok out.
Proof. exact int32_everywhere. Qed.
Print Assumptions C06_int32_positions.
Example C06_positions_ex :
  let f := mkF 5 0 TagVarint true true TagNone TagNone (TSlice (TScalar Int32)) None in
  let E : env := fun _ => mkS [f] false 24 [f_T f] (VStruct [VSlice [] []] None) in
  int32_position (2^32 - 1) f (VSlice [VNum (2^32 - 1)] []) (tag 5 2 ++ lendelim (varint (2^64 - 1))) /\
  Marshal E (APtr 0 (Some (VStruct [VSlice [VNum (2^32 - 1)] []] None))) =
    Ok [x2a; x0a; xff; xff; xff; xff; xff; xff; xff; xff; xff; x01].
Proof. split; [apply pos_packed|vm_compute; reflexivity]. Qed.

(** C07.  [nested E 1001 id p]: there are 1001 messages nested in each other. *)
Theorem C07_encode_depth : forall E, wf_env E -> forall id v, wt E (TStruct id) v ->
  (nested E 1001 id (Some v) ->
     Marshal E (APtr id (Some v)) = Err EMaxDepth /\ Size E (APtr id (Some v)) = Err EMaxDepth) /\
  (~ nested E 1001 id (Some v) ->
     exists s n, Marshal E (APtr id (Some v)) = Ok s /\ Size E (APtr id (Some v)) = Ok n).
Proof. exact Marshal_depth. Qed.
Print Assumptions C07_encode_depth.
Example C07_ex : nested sample 1001 1 (Some (deep 1000)) /\
  Marshal sample (APtr 1 (Some (deep 1000))) = Err EMaxDepth /\
  match Marshal sample (APtr 1 (Some (deep 999))) with Ok s => 4000 <? blen s | _ => false end = true.
Proof.
  split; [exact (deep_nested 1000)|]. split; vm_compute; reflexivity.
Qed.

(** C31.  For types without by-value message fields Size and Marshal agree on a nil
    pointer ... *)
Theorem C31_nil_agree_partial : forall E, wf_env E -> forall id, no_value_messages E id ->
  Marshal E (APtr id None) = Ok [] /\ Size E (APtr id None) = Ok 0.
Proof. exact nil_agree. Qed.
Print Assumptions C31_nil_agree_partial.
Example C31_ex : no_value_messages sample 0 /\ no_value_messages sample 1.
Proof. split; intros f H id'; repeat (destruct H as [<-|H]; [discriminate|]); destruct H. Qed.
(** ... with a by-value message field (gogoproto.nullable = false) they do not, nor on a
    nil interface. *)
Theorem C31_nil_refuted :
  (exists E id s, wf_env E /\ Marshal E (APtr id None) = Ok s /\ blen s <> 0 /\ Size E (APtr id None) = Ok 0) /\
  (forall E, Marshal E ANil = Err ENotPointer /\ Size E ANil = Ok 0).
Proof.
  split; [|split; reflexivity]. exists sample, 2%nat, [x0a; x00]. split; [exact sample_wf|].
  split; [vm_compute; reflexivity|]. split; [discriminate|reflexivity].
Qed.
Print Assumptions C31_nil_refuted.

(** C34, encoding part. *)
Theorem C34_orders_encode : forall E, wf_env E -> forall id v v', wt E (TStruct id) v -> vsame v v' ->
  match Marshal E (APtr id (Some v)), Marshal E (APtr id (Some v')) with
  | Ok s, Ok s' => blen s < 2^63 -> length s = length s' /\
      exists m m', s = wire m /\ s' = wire m' /\ pequiv m m'
  | Err e, Err e' => e = e'
  | _, _ => False
  end.
Proof. exact Marshal_orders. Qed.
Print Assumptions C34_orders_encode.
Example C34_ex : vsame sample_val sample_val' /\
  exists s s', Marshal sample (APtr 0 (Some sample_val)) = Ok s /\
    Marshal sample (APtr 0 (Some sample_val')) = Ok s' /\ s <> s'.
Proof.
  split; [exact sample_same|]. do 2 eexists. split; [vm_compute; reflexivity|]. split; [vm_compute; reflexivity|].
  discriminate.
Qed.

(** C40, encoding part: a nil element of a list or map is encoded like a pointer to a zero
    message ([fill_nils] replaces the former by the latter) ... *)
Theorem C40_nil_elements : forall E, wf_env E -> forall id v, wt E (TStruct id) v ->
  match Marshal E (APtr id (Some v)) with
  | Ok s => blen s < 2^63 -> Marshal E (APtr id (Some (fill_nils E id v))) = Ok s
  | r => Marshal E (APtr id (Some (fill_nils E id v))) = r
  end.
Proof. exact Marshal_fill. Qed.
Print Assumptions C40_nil_elements.
(** ... which denotes the empty message, unless there are by-value message fields. *)
Theorem C40_zero_is_empty : forall E, wf_env E -> forall two d id, no_value_messages E id ->
  msg E two (S d) id None = Some (QMsg [] []).
Proof. exact nil_msg. Qed.
Print Assumptions C40_zero_is_empty.
Example C40_ex : fill_nils sample 0 sample_val <> sample_val /\
  msg sample false 1000 1 None = Some (QMsg [] []).
Proof. split; [discriminate|reflexivity]. Qed.
