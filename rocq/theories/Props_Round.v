(** Property theorems about Marshal followed by Unmarshal.  The specification is RoundSpec:
    [message] (values with well-formed unknown bytes), [same_value] (equal up to the listed
    normalisations), [levels] (nesting, with maps counting twice). *)
From Verif Require Import Base WireSpec Value Desc MsgSpec Encoder Decoder DecSpec ValFacts EncFacts RoundSpec RoundTrip RoundFacts Sample SampleDec.
From Coq Require Import Init.Byte Lia Sorting.Permutation.
Open Scope N_scope.

(** C01.  [v0] is the message seen through the map iteration orders of this call. *)
Theorem C01_round_trip : forall E, wf_env E -> forall id v v0, message E id v ->
  (forall n, levels E n id (Some v) -> (n <= 1000)%nat) -> vsame v v0 ->
  exists s, Marshal E (APtr id (Some v0)) = Ok s /\ (blen s < 2^63 -> forall P, exists v',
    Unmarshal E P s (APtr id (Some (sd_zero (E id)))) = DOk v' tt /\ same_value E (TStruct id) v v').
Proof. exact round_trip. Qed.
Print Assumptions C01_round_trip.
(** The premise on unknown bytes is met by everything Unmarshal produces. *)
Theorem C01_unmarshalled : forall E, wf_env E -> forall P id b v v', message E id v ->
  Unmarshal E P b (APtr id (Some v)) = DOk v' tt -> message E id v'.
Proof. exact Unmarshal_message. Qed.
Print Assumptions C01_unmarshalled.
(** The limit on nesting is that of the denotation. *)
Theorem C01_levels : forall E, wf_env E -> forall id v, wt E (TStruct id) v ->
  ((forall n, levels E n id (Some v) -> (n <= 1000)%nat) <-> msg E true 1000 id (Some v) <> None).
Proof.
  intros E WF id v W. split.
  - intros H N. destruct (msg_levels E WF 1000 1000 id (Some v) (le_n _) W N) as (k & LT & L). apply H in L. lia.
  - intros H n L. destruct (msg E true 1000 id (Some v)) as [m|] eqn:M; [|congruence]. exact (levels_msg E WF n id (Some v) L W 1000 m M).
Qed.
Print Assumptions C01_levels.
(** Maps count twice for Unmarshal but once for Marshal: a message with 501 messages nested
    in maps is encoded and cannot be decoded. *)
Fixpoint map_tree (n : nat) : val :=
  match n with
  | O => VStruct [VPtr None; VMap None; VSlice [] []] None
  | S n => VStruct [VPtr None; VMap (Some [(VNum 1, VPtr (Some (map_tree n)))]); VSlice [] []] None
  end.
Lemma map_tree_message : forall n, message sample 4 (map_tree n).
Proof.
  unfold message. induction n as [|n IH]; [cbn; repeat split|]. cbn. unfold num_ok. cbn. repeat split; auto; try lia; try discriminate.
  constructor; [intros []|constructor].
Qed.
Theorem C01_map_depth_refuted : exists E id v s, wf_env E /\ message E id v /\
  Marshal E (APtr id (Some v)) = Ok s /\ blen s < 2^63 /\
  forall P, exists v', Unmarshal E P s (APtr id (Some (sd_zero (E id)))) = DErr v' EMaxDepth.
Proof.
  exists sample, 4%nat, (map_tree 500). eexists. split; [exact sample_wf|]. split; [apply map_tree_message|].
  split; [vm_compute; reflexivity|]. split; [vm_compute; reflexivity|]. intro P. eexists. vm_compute. reflexivity.
Qed.
Print Assumptions C01_map_depth_refuted.

Lemma sample_message : message sample 0 sample_val.
Proof.
  assert (U1 : unknown_ok sample 1 [x7a; x00]).
  { exists [mkW 15 2 [x7a] [x00]]. split; [split; [constructor; [|constructor]|reflexivity]|].
    - split; [vv|]. split; [reflexivity|]. split; [cbn; lia|]. exists O. apply (PBytes 15 [x00] [] 0); vv.
    - constructor; [|constructor]. split; [reflexivity|]. exists O. split; [|cbn; lia]. apply (PBytes 15 [x00] [] 0); vv. }
  assert (U0 : unknown_ok sample 0 [xf8; x07; x05]).
  { exists [mkW 127 0 [xf8; x07] [x05]]. split; [split; [constructor; [|constructor]|reflexivity]|].
    - split; [vv|]. split; [reflexivity|]. split; [cbn; lia|]. exists O. econstructor; vv.
    - constructor; [|constructor]. split; [reflexivity|]. exists O. split; [|cbn; lia]. econstructor; vv. }
  unfold message, sample_val, inner_val; cbn. unfold num_ok; cbn. repeat split; try discriminate; auto; try lia.
  - constructor; [cbn; intros [H|[]]; discriminate|]. constructor; [intros []|constructor].
  - constructor; [cbn; intros [H|[]]; discriminate|]. constructor; [intros []|constructor].
Qed.
Lemma sample_levels : forall n, levels sample n 0 (Some sample_val) -> (n <= 1000)%nat.
Proof. apply C01_levels; [exact sample_wf|exact sample_typed|]. vm_compute. discriminate. Qed.
Definition sample_back : val := VStruct
  [VNum (2^32 - 1); VStr [x68; x69]; VPtr (Some (VNum 0)); VSlice [VNum 1; VNum (2^32 - 2)] [];
   VSlice [VPtr (Some inner_val); VPtr (Some (VStruct [VNum 0; VPtr None] None))]
     [VPtr None; VPtr None; VPtr None; VPtr None; VPtr None; VPtr None];
   VMap (Some [(VStr [], VPtr (Some (VStruct [VNum 0; VPtr None] None))); (VStr [x61], VPtr (Some inner_val))]);
   VIface (Some (1%nat, Some (VStr [x21]))); VMap (Some [(VNum (2^32 - 3), VNum 0); (VNum 3, VNum 300)]);
   VSlice [VNum 17] [VUninit; VUninit; VUninit; VUninit; VUninit; VUninit; VUninit]; VBytes (Some [xff])] (Some [xf8; x07; x05]).
Example C01_ex : message sample 0 sample_val /\ (forall n, levels sample n 0 (Some sample_val) -> (n <= 1000)%nat) /\
  vsame sample_val sample_val' /\
  exists s, Marshal sample (APtr 0 (Some sample_val')) = Ok s /\ blen s = 118 /\
    Unmarshal sample pool0 s (APtr 0 (Some (sd_zero (sample 0%nat)))) = DOk sample_back tt.
Proof.
  split; [exact sample_message|]. split; [exact sample_levels|]. split; [exact sample_same|].
  eexists. split; [vm_compute; reflexivity|]. split; vm_compute; reflexivity.
Qed.

(** [v'] is what [v] becomes: Marshal (under some iteration orders), then Unmarshal into a
    zero message. *)
Definition comes_back (E : env) (id : nat) (v v' : val) : Prop :=
  message E id v /\ (forall n, levels E n id (Some v) -> (n <= 1000)%nat) /\
  exists v0 s P, vsame v v0 /\ Marshal E (APtr id (Some v0)) = Ok s /\ blen s < 2^63 /\
    Unmarshal E P s (APtr id (Some (sd_zero (E id)))) = DOk v' tt.
Lemma comes_back_same : forall E, wf_env E -> forall id v v', comes_back E id v v' -> same_value E (TStruct id) v v'.
Proof.
  intros E WF id v v' (M & LV & v0 & s & P & VS & MS & SM & UM). destruct (round_trip E WF id v v0 M LV VS) as (s1 & MS1 & RT).
  rewrite MS in MS1. injection MS1 as <-. destruct (RT SM P) as (v1 & UM1 & SV). congruence.
Qed.
Lemma sample_comes_back : comes_back sample 0 sample_val sample_back.
Proof.
  split; [exact sample_message|]. split; [exact sample_levels|]. exists sample_val'. eexists. exists pool0. split; [exact sample_same|].
  split; [vm_compute; reflexivity|]. split; vm_compute; reflexivity.
Qed.

(** C34, decoding: through whatever orders the entries of its maps were written, the
    decoded message is equal to the one encoded. *)
Theorem C34_decodes_equal : forall E, wf_env E -> forall id v v', comes_back E id v v' -> same_value E (TStruct id) v v'.
Proof. exact comes_back_same. Qed.
Print Assumptions C34_decodes_equal.
Example C34_ex2 : comes_back sample 0 sample_val sample_back.
Proof. exact sample_comes_back. Qed.

(** C32.  False of the code: a member holding zero, the empty string or empty bytes is not
    written (here x = 0), so the oneof comes back unset. *)
Definition zero_oneof (slot : val) : val := VStruct
  [VNum 0; VStr []; VPtr None; VSlice [] []; VSlice [] []; VMap None; slot; VMap None; VSlice [] []; VBytes None] None.
Theorem C32_refuted : exists E id v v' f, wf_env E /\ comes_back E id v v' /\ In f (sd_fields (E id)) /\
  f_oneof f = Some 0%nat /\ slot_of f v = Some (VIface (Some (0%nat, Some (VNum 0)))) /\ slot_of f v' = Some (VIface None).
Proof.
  exists sample, 0%nat, (zero_oneof (VIface (Some (0%nat, Some (VNum 0))))), (zero_oneof (VIface None)).
  exists (mkF 7 6 TagVarint false false TagNone TagNone (TScalar Int64) (Some 0%nat)).
  split; [exact sample_wf|]. split; [|cbn; repeat split; auto 10]. split; [|split].
  - unfold message, zero_oneof. cbn. unfold num_ok; cbn. repeat split; try discriminate; auto; lia.
  - apply C01_levels; [exact sample_wf| |vm_compute; discriminate]. unfold wt, zero_oneof. cbn. unfold num_ok; cbn. repeat split; try discriminate; auto; lia.
  - eexists. exists [], pool0. split; [apply same_refl|]. split; [vm_compute; reflexivity|]. split; vm_compute; reflexivity.
Qed.
Print Assumptions C32_refuted.
(** What holds: every other member comes back with the same content, and no member appears
    that was not set. *)
Theorem C32_kept_partial : forall E, wf_env E -> forall id v v' f w, comes_back E id v v' -> In f (sd_fields (E id)) -> f_oneof f = Some w ->
  (forall x, slot_of f v = Some (VIface (Some (w, Some x))) -> dropped E f x = false ->
     exists x', slot_of f v' = Some (VIface (Some (w, Some x'))) /\ same_data E f x x') /\
  (forall x', slot_of f v' = Some (VIface (Some (w, Some x'))) ->
     exists x, slot_of f v = Some (VIface (Some (w, Some x))) /\ same_data E f x x').
Proof.
  intros E WF id v v' f w CB HI O. apply comes_back_same in CB; [|assumption].
  destruct (same_struct_field E id v v' f CB HI) as (slot & slot' & S1 & S2 & SF). rewrite S1, S2. split.
  - intros x X D. injection X as ->. destruct (oneof_kept E f w x slot' O D SF) as (x' & -> & SD). eauto.
  - intros x' X. injection X as ->. destruct (oneof_not_invented E f w slot x' O SF) as (x & -> & _ & SD). eauto.
Qed.
Print Assumptions C32_kept_partial.
Example C32_ex : let f := mkF 8 6 TagBytes false false TagNone TagNone TString (Some 1%nat) in
  comes_back sample 0 sample_val sample_back /\ In f (sd_fields (sample 0%nat)) /\
  slot_of f sample_val = Some (VIface (Some (1%nat, Some (VStr [x21])))) /\ dropped sample f (VStr [x21]) = false.
Proof. split; [exact sample_comes_back|]. repeat split; cbn; auto 10. Qed.

(** C33.  False of the code for optional bytes: set but empty comes back unset. *)
Theorem C33_refuted : exists E id v v' f, wf_env E /\ comes_back E id v v' /\ In f (sd_fields (E id)) /\ f_T f = TBytes /\
  slot_of f v = Some (VBytes (Some [])) /\ slot_of f v' = Some (VBytes None).
Proof.
  set (w := fun z => VStruct [VNum 0; VStr []; VPtr None; VSlice [] []; VSlice [] []; VMap None; VIface None; VMap None; VSlice [] []; VBytes z] None).
  exists sample, 0%nat, (w (Some [])), (w None), (mkF 2000 9 TagBytes false false TagNone TagNone TBytes None).
  split; [exact sample_wf|]. split; [|cbn; repeat split; auto 15]. split; [|split].
  - unfold message, w. cbn. unfold num_ok; cbn. repeat split; try discriminate; auto; lia.
  - apply C01_levels; [exact sample_wf| |vm_compute; discriminate]. unfold wt, w. cbn. unfold num_ok; cbn. repeat split; try discriminate; auto; lia.
  - eexists. exists [], pool0. split; [apply same_refl|]. split; [vm_compute; reflexivity|]. split; vm_compute; reflexivity.
Qed.
Print Assumptions C33_refuted.
(** What holds: an optional field represented by a pointer (scalars, strings, messages) comes
    back set to the same value, zero included, or unset. *)
Theorem C33_pointer_partial : forall E, wf_env E -> forall id v v' f t p, comes_back E id v v' -> In f (sd_fields (E id)) ->
  f_oneof f = None -> f_T f = TPtr t -> slot_of f v = Some (VPtr p) ->
  match p with
  | Some x => exists x', slot_of f v' = Some (VPtr (Some x')) /\ same_value E t x x'
  | None => slot_of f v' = Some (VPtr None)
  end.
Proof.
  intros E WF id v v' f t p CB HI O T SL. apply comes_back_same in CB; [|assumption].
  destruct (same_struct_field E id v v' f CB HI) as (slot & slot' & S1 & S2 & SF). rewrite SL in S1. injection S1 as <-. rewrite S2.
  pose proof (optional_kept E f t p slot' O T SF) as X. destruct p; [|now subst]. destruct X as (x' & -> & SV). eauto.
Qed.
Print Assumptions C33_pointer_partial.
Example C33_ex : let f := mkF 3 2 TagZigZag64 false false TagNone TagNone (TPtr (TScalar Int64)) None in
  comes_back sample 0 sample_val sample_back /\ In f (sd_fields (sample 0%nat)) /\ slot_of f sample_val = Some (VPtr (Some (VNum 0))).
Proof. split; [exact sample_comes_back|]. repeat split; cbn; auto 10. Qed.

(** C40: lists keep their length and maps their keys; a nil element comes back as an empty
    message. *)
Theorem C40_list_survives : forall E, wf_env E -> forall id v v' f id1 e sp, comes_back E id v v' -> In f (sd_fields (E id)) ->
  f_oneof f = None -> f_T f = TSlice (TPtr (TStruct id1)) -> slot_of f v = Some (VSlice e sp) ->
  exists e' sp', slot_of f v' = Some (VSlice e' sp') /\ length e' = length e /\
    forall i, nth_error e i = Some (VPtr None) ->
      exists y, nth_error e' i = Some (VPtr (Some y)) /\ same_value E (TStruct id1) (sd_zero (E id1)) y.
Proof.
  intros E WF id v v' f id1 e sp CB HI O T SL. apply comes_back_same in CB; [|assumption].
  destruct (same_struct_field E id v v' f CB HI) as (slot & slot' & S1 & S2 & SF). rewrite SL in S1. injection S1 as <-.
  destruct (list_kept E f _ e sp slot' O T SF) as (e' & sp' & -> & F). exists e', sp'. split; [exact S2|]. split; [symmetry; eapply Forall2_length'; exact F|].
  intros i N. destruct (Forall2_nth_error _ _ _ _ _ F N) as (y & N' & SV). apply nil_elem in SV as (z & -> & SZ). eauto.
Qed.
Print Assumptions C40_list_survives.
Theorem C40_map_survives : forall E, wf_env E -> forall id v v' f kt vt m, comes_back E id v v' -> In f (sd_fields (E id)) ->
  f_oneof f = None -> f_T f = TMap kt vt -> slot_of f v = Some (VMap m) ->
  exists m', slot_of f v' = Some (VMap m') /\ Permutation (map fst (entries m)) (map fst (entries m')).
Proof.
  intros E WF id v v' f kt vt m CB HI O T SL. apply comes_back_same in CB; [|assumption].
  destruct (same_struct_field E id v v' f CB HI) as (slot & slot' & S1 & S2 & SF). rewrite SL in S1. injection S1 as <-.
  destruct (map_kept E f kt vt m slot' O T SF) as (m' & -> & PM). eauto.
Qed.
Print Assumptions C40_map_survives.
Example C40_ex2 : let f := mkF 5 4 TagBytes true false TagNone TagNone (TSlice (TPtr (TStruct 1))) None in
  comes_back sample 0 sample_val sample_back /\ In f (sd_fields (sample 0%nat)) /\
  slot_of f sample_val = Some (VSlice [VPtr (Some inner_val); VPtr None] []).
Proof. split; [exact sample_comes_back|]. repeat split; cbn; auto 10. Qed.

(** C54.  A decoded encoding, encoded again, gives the same bytes up to the order of map
    entries: the messages denoted are equivalent.  (No field holds a message by value.) *)
Theorem C54_encode_again_partial : forall E, wf_env E -> forall id v s P v', (forall id, no_value_messages E id) ->
  message E id v -> (forall n, levels E n id (Some v) -> (n <= 1000)%nat) ->
  Marshal E (APtr id (Some v)) = Ok s -> blen s < 2^63 ->
  Unmarshal E P s (APtr id (Some (sd_zero (E id)))) = DOk v' tt ->
  exists m m', msg E false 1000 id (Some v) = Some m /\ msg E false 1000 id (Some v') = Some m' /\ pequiv m m' /\
    s = wire m /\ Marshal E (APtr id (Some v')) = Ok (wire m') /\ length (wire m') = length s.
Proof. exact again. Qed.
Print Assumptions C54_encode_again_partial.
Definition flat : env := fun id => match id with O => sample_desc | S O => inner_desc | _ => empty_desc end.
Lemma flat_wf : wf_env flat.
Proof.
  intros id. pose proof (sample_wf 0%nat) as [A0 B0 C0 D0]. pose proof (sample_wf 1%nat) as [A1 B1 C1 D1]. pose proof (sample_wf 9%nat) as [A2 B2 C2 D2].
  destruct id as [|[|id]]; split; auto.
Qed.
Lemma flat_flat : forall id, no_value_messages flat id.
Proof.
  intros [|[|id]] f HI id'; cbn in HI; repeat (destruct HI as [<-|HI]; [discriminate|]); destruct HI.
Qed.
Example C54_ex : wf_env flat /\ (forall id, no_value_messages flat id) /\
  exists s v' s', Marshal flat (APtr 0 (Some sample_val)) = Ok s /\ blen s = 118 /\
    Unmarshal flat pool0 s (APtr 0 (Some (sd_zero (flat 0%nat)))) = DOk v' tt /\ v' <> sample_val /\
    Marshal flat (APtr 0 (Some v')) = Ok s' /\ s' = s.
Proof.
  split; [exact flat_wf|]. split; [exact flat_flat|]. do 3 eexists. split; [vm_compute; reflexivity|]. split; [vm_compute; reflexivity|].
  split; [vm_compute; reflexivity|]. split; [discriminate|]. split; vm_compute; reflexivity.
Qed.
(** With a message held by value it fails: struct 0 holds struct 1, whose only field is a
    map.  An empty map that is not nil is written as an empty message, read back as a nil
    map, and then left out. *)
Definition holder : env := fun id => match id with
  | O => mkS [mkF 1 0 TagBytes false false TagNone TagNone (TStruct 1) None] false 8 [TStruct 1] (VStruct [VStruct [VMap None] None] None)
  | S O => mkS [mkF 1 0 TagBytes true false TagVarint TagVarint (TMap (TScalar Int32) (TScalar Int32)) None] false 8
             [TMap (TScalar Int32) (TScalar Int32)] (VStruct [VMap None] None)
  | _ => empty_desc end.
Lemma holder_wf : wf_env holder.
Proof.
  intros [|[|id]]; split; try reflexivity; try (intros f []; fail); try (intros f g []; fail).
  all: cbn [holder sd_fields empty_desc].
  all: try (repeat (constructor; cbn; try lia); fail).
  all: try (intros f [<-|[]]; unfold wf_field; cbn; repeat split; try lia; eauto; fail).
  all: intros f g [<-|[]] [<-|[]] _; now left.
Qed.
Theorem C54_refuted : exists E id v s P v' s', wf_env E /\ message E id v /\ (forall n, levels E n id (Some v) -> (n <= 1000)%nat) /\
  Marshal E (APtr id (Some v)) = Ok s /\ Unmarshal E P s (APtr id (Some (sd_zero (E id)))) = DOk v' tt /\
  Marshal E (APtr id (Some v')) = Ok s' /\ s' <> s.
Proof.
  exists holder, 0%nat, (VStruct [VStruct [VMap (Some [])] None] None). eexists. exists pool0. do 2 eexists. split; [exact holder_wf|].
  split; [unfold message; cbn; repeat split; constructor|]. split.
  { apply C01_levels; [exact holder_wf|unfold wt; cbn; repeat split; constructor|vm_compute; discriminate]. }
  split; [vm_compute; reflexivity|]. split; [vm_compute; reflexivity|]. split; [vm_compute; reflexivity|]. discriminate.
Qed.
Print Assumptions C54_refuted.
