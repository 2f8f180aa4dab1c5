(** Property theorems about the arguments of the public functions. *)
From Coq Require Import Lia.
From Verif Require Import Base Wire Coder MapTables Value Desc MsgSpec Encoder Sizer Decoder Sample SampleDec.
Open Scope N_scope.

(** C09, for targets that are not pointers: an error, as for Marshal and MarshalAppend. *)
Theorem C09_not_pointer : forall E P b a, a = ANil \/ a = AOther ->
  (exists v, Unmarshal E P b a = DErr v ENotPointer) /\
  MarshalAppend E b a = Err ENotPointer /\ Marshal E a = Err ENotPointer.
Proof. intros E P b a [-> | ->]; cbn; eauto. Qed.
Print Assumptions C09_not_pointer.
(** C09 is false of the code for typed nil pointers: Unmarshal writes through them. *)
Theorem C09_nil_refuted : exists E P b id, wf_env E /\ sd_unknown (E id) = true /\ Unmarshal E P b (APtr id None) = DPanic.
Proof. exists sample, pool0, [], 0%nat. split; [exact sample_wf|]. split; reflexivity. Qed.
Print Assumptions C09_nil_refuted.
