(** A concrete input for the sample schema. *)
From Verif Require Import Base WireSpec Value Desc MsgSpec Encoder Decoder DecSpec Sample.
From Coq Require Import Init.Byte Lia.
Open Scope N_scope.

(** Any pool. *)
Definition pool0 : pool := fun _ _ => (VUninit, VUninit).

(** i = 5 with an overlong tag; unknown field 15 = 7; l += {a: 1}; x = 3; y = "b"; n[3] = 1;
    n[3] = 2; i = 9; l += {}; unknown group 16; o = -1; p += 6 (unpacked); q += 17 *)
Definition rec_i5 := mkW 1 0 [x88; x00] [x05].
Definition rec_u15 := mkW 15 0 [x78] [x07].
Definition rec_l1 := mkW 5 2 [x2a] [x02; x08; x01].
Definition rec_x3 := mkW 7 0 [x38] [x03].
Definition rec_yb := mkW 8 2 [x42] [x01; x62].
Definition rec_n31 := mkW 9 2 [x4a] [x04; x08; x03; x10; x01].
Definition rec_n32 := mkW 9 2 [x4a] [x04; x08; x03; x10; x02].
Definition rec_i9 := mkW 1 0 [x08] [x09].
Definition rec_l2 := mkW 5 2 [x2a] [x00].
Definition rec_u16 := mkW 16 3 [x83; x01] [x08; x01; x84; x01].
Definition rec_o := mkW 3 0 [x18] [x01].
Definition rec_p6 := mkW 4 0 [x20] [x06].
Definition rec_q17 := mkW 10 5 [x55] [x11; x00; x00; x00].
Definition sample_recs : list wrec :=
  [rec_i5; rec_u15; rec_l1; rec_x3; rec_yb; rec_n31; rec_n32; rec_i9; rec_l2; rec_u16; rec_o; rec_p6; rec_q17].
Definition sample_input : bytes := concat (map w_raw sample_recs).

Ltac vv := repeat split; try reflexivity; try discriminate; cbn; lia.
Lemma sample_input_recs : wire_records sample_input sample_recs.
Proof.
  split; [|reflexivity].
  repeat (constructor; [split; [vv|]; split; [reflexivity|]; split; [cbn; lia|]; cbn [w_num w_typ w_data rec_i5 rec_u15 rec_l1 rec_x3 rec_yb rec_n31 rec_n32 rec_i9 rec_l2 rec_u16 rec_o rec_p6 rec_q17]|]);
    try constructor; try (exists O; econstructor; vv).
  - exists O. apply (PBytes 5 [x02] [x08; x01] 2); vv.
  - exists O. apply (PBytes 8 [x01] [x62] 1); vv.
  - exists O. apply (PBytes 9 [x04] [x08; x03; x10; x01] 4); vv.
  - exists O. apply (PBytes 9 [x04] [x08; x03; x10; x02] 4); vv.
  - exists O. apply (PBytes 5 [x00] [] 0); vv.
  - exists 1%nat. constructor. apply (GField 16 [x08] 8 1 0 [x01] [x84; x01] 0 0); try vv.
    + econstructor; vv.
    + eapply (GEnd 16 [x84; x01] 132); vv.
Qed.

(** The result of decoding it into [sample_val]. *)
Definition sample_result : val := VStruct
  [VNum 9; VStr [x68; x69]; VPtr (Some (VNum (2^64 - 1))); VSlice [VNum 1; VNum (2^32 - 2); VNum 6] [];
   VSlice [VPtr (Some inner_val); VPtr None; VPtr (Some (VStruct [VNum 1; VPtr None] None));
           VPtr (Some (VStruct [VNum 0; VPtr None] None))] [];
   VMap (Some [(VStr [x61], VPtr (Some inner_val)); (VStr [], VPtr None)]);
   VIface (Some (1%nat, Some (VStr [x62]))); VMap (Some [(VNum 3, VNum 2); (VNum (2^32 - 3), VNum 0)]);
   VSlice [VNum 17; VNum 17] []; VBytes (Some [xff])] (Some [x78; x07; x83; x01; x08; x01; x84; x01]).
Lemma sample_decodes : Unmarshal sample pool0 sample_input (APtr 0 (Some sample_val)) = DOk sample_result tt.
Proof. vm_compute. reflexivity. Qed.
