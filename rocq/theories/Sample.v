(** A concrete schema used to show that the hypotheses of the theorems can be met:

    message Inner { int32 a = 1; Inner next = 2; }            (struct 1)
    message Msg {                                             (struct 0)
      int32 i = 1; string s = 2; optional sint64 o = 3; repeated int32 p = 4 [packed];
      repeated Inner l = 5; map<string, Inner> m = 6;
      oneof c { int64 x = 7; string y = 8; }
      map<int32, int64> n = 9; repeated fixed32 q = 10; bytes z = 2000;
    }
    message ByVal { Inner v = 1 [(gogoproto.nullable) = false]; int32 k = 2; }   (struct 2)
    message Bools {                                           (struct 3)
      bool a = 1; repeated bool u = 2 [packed = false]; repeated bool p = 3 [packed];
      map<bool, bool> m = 4; map<bool, string> g = 5; map<bool, int32> h = 6;
    }
    message Tree {                                            (struct 4)
      Tree c = 1; map<int32, Tree> m = 2; repeated Inner l = 3 [(gogoproto.nullable) = false];
    }
    message Outer { Tree t = 1 [(gogoproto.nullable) = false]; }                (struct 5)
    every other struct type has no fields. *)
From Verif Require Import Base Value Desc MsgSpec.
From Coq Require Import Init.Byte Sorting.Sorted Lia.
Open Scope N_scope.

Definition inner_slots : list gotype := [TScalar Int32; TPtr (TStruct 1)].
Definition inner_desc : sdesc := mkS
  [mkF 1 0 TagVarint false false TagNone TagNone (TScalar Int32) None;
   mkF 2 1 TagBytes false false TagNone TagNone (TPtr (TStruct 1)) None]
  true 40 inner_slots (VStruct [VNum 0; VPtr None] None).

Definition sample_alts : list (nat * gotype) := [(0%nat, TScalar Int64); (1%nat, TString)].
Definition sample_slots : list gotype :=
  [TScalar Int32; TString; TPtr (TScalar Int64); TSlice (TScalar Int32); TSlice (TPtr (TStruct 1));
   TMap TString (TPtr (TStruct 1)); TIface sample_alts; TMap (TScalar Int32) (TScalar Int64);
   TSlice (TScalar Uint32); TBytes].
Definition sample_fields : list fdesc :=
  [mkF 1 0 TagVarint false false TagNone TagNone (TScalar Int32) None;
   mkF 2 1 TagBytes false false TagNone TagNone TString None;
   mkF 3 2 TagZigZag64 false false TagNone TagNone (TPtr (TScalar Int64)) None;
   mkF 4 3 TagVarint true true TagNone TagNone (TSlice (TScalar Int32)) None;
   mkF 5 4 TagBytes true false TagNone TagNone (TSlice (TPtr (TStruct 1))) None;
   mkF 6 5 TagBytes true false TagBytes TagBytes (TMap TString (TPtr (TStruct 1))) None;
   mkF 7 6 TagVarint false false TagNone TagNone (TScalar Int64) (Some 0%nat);
   mkF 8 6 TagBytes false false TagNone TagNone TString (Some 1%nat);
   mkF 9 7 TagBytes true false TagVarint TagVarint (TMap (TScalar Int32) (TScalar Int64)) None;
   mkF 10 8 TagFixed32 true false TagNone TagNone (TSlice (TScalar Uint32)) None;
   mkF 2000 9 TagBytes false false TagNone TagNone TBytes None].
Definition sample_desc : sdesc := mkS sample_fields true 200 sample_slots
  (VStruct [VNum 0; VStr []; VPtr None; VSlice [] []; VSlice [] []; VMap None; VIface None; VMap None;
            VSlice [] []; VBytes None] None).

Definition byval_desc : sdesc := mkS
  [mkF 1 0 TagBytes false false TagNone TagNone (TStruct 1) None;
   mkF 2 1 TagVarint false false TagNone TagNone (TScalar Int32) None]
  false 48 [TStruct 1; TScalar Int32] (VStruct [VStruct [VNum 0; VPtr None] None; VNum 0] None).
Definition empty_desc : sdesc := mkS [] false 0 [] (VStruct [] None).

Definition bools_desc : sdesc := mkS
  [mkF 1 0 TagVarint false false TagNone TagNone (TScalar Bool) None;
   mkF 2 1 TagVarint true false TagNone TagNone (TSlice (TScalar Bool)) None;
   mkF 3 2 TagVarint true true TagNone TagNone (TSlice (TScalar Bool)) None;
   mkF 4 3 TagBytes true false TagVarint TagVarint (TMap (TScalar Bool) (TScalar Bool)) None;
   mkF 5 4 TagBytes true false TagVarint TagBytes (TMap (TScalar Bool) TString) None;
   mkF 6 5 TagBytes true false TagVarint TagVarint (TMap (TScalar Bool) (TScalar Int32)) None]
  false 72 [TScalar Bool; TSlice (TScalar Bool); TSlice (TScalar Bool); TMap (TScalar Bool) (TScalar Bool);
            TMap (TScalar Bool) TString; TMap (TScalar Bool) (TScalar Int32)]
  (VStruct [VNum 0; VSlice [] []; VSlice [] []; VMap None; VMap None; VMap None] None).
Definition tree_desc : sdesc := mkS
  [mkF 1 0 TagBytes false false TagNone TagNone (TPtr (TStruct 4)) None;
   mkF 2 1 TagBytes true false TagVarint TagBytes (TMap (TScalar Int32) (TPtr (TStruct 4))) None;
   mkF 3 2 TagBytes true false TagNone TagNone (TSlice (TStruct 1)) None]
  false 40 [TPtr (TStruct 4); TMap (TScalar Int32) (TPtr (TStruct 4)); TSlice (TStruct 1)]
  (VStruct [VPtr None; VMap None; VSlice [] []] None).

Definition outer_desc : sdesc := mkS
  [mkF 1 0 TagBytes false false TagNone TagNone (TStruct 4) None]
  false 40 [TStruct 4] (VStruct [VStruct [VPtr None; VMap None; VSlice [] []] None] None).

Definition sample : env := fun id =>
  match id with O => sample_desc | 1%nat => inner_desc | 2%nat => byval_desc | 3%nat => bools_desc
  | 4%nat => tree_desc | 5%nat => outer_desc | _ => empty_desc end.

Lemma sample_wf : wf_env sample.
Proof.
  intros [|[|[|[|[|[|id]]]]]]; split; try reflexivity.
  all: try (intros f []; fail); try (intros f g []; fail).
  all: cbn [sample sample_desc inner_desc byval_desc bools_desc tree_desc outer_desc empty_desc sd_fields sample_fields].
  all: try (repeat (constructor; cbn; try lia); fail).
  all: try (intros f H; cbn [In] in H; repeat (destruct H as [<-|H]; [unfold wf_field; cbn; repeat split; try lia; eauto|]); destruct H; fail).
  all: intros f g Hf Hg; cbn [In] in Hf, Hg.
  all: repeat (destruct Hf as [<-|Hf]; [repeat (destruct Hg as [<-|Hg];
     [cbn; intro X; try discriminate X; try (left; reflexivity); right; eexists _, _; repeat split; discriminate|]); destruct Hg|]).
  all: destruct Hf.
Qed.

(** A populated message. *)
Definition inner_val : val := VStruct [VNum (2^32 - 5); VPtr (Some (VStruct [VNum 7; VPtr None] None))] (Some [x7a; x00]).
Definition sample_val : val := VStruct
  [VNum (2^32 - 1); VStr [x68; x69]; VPtr (Some (VNum 0)); VSlice [VNum 1; VNum (2^32 - 2)] [VUninit];
   VSlice [VPtr (Some inner_val); VPtr None] [];
   VMap (Some [(VStr [x61], VPtr (Some inner_val)); (VStr [], VPtr None)]);
   VIface (Some (1%nat, Some (VStr [x21]))); VMap (Some [(VNum 3, VNum 300); (VNum (2^32 - 3), VNum 0)]);
   VSlice [VNum 17] []; VBytes (Some [xff])] (Some [xf8; x07; x05]).
Lemma inner_typed : wt sample (TStruct 1) inner_val.
Proof. unfold wt, inner_val; cbn. repeat split; try discriminate; auto. Qed.
Lemma sample_typed : wt sample (TStruct 0) sample_val.
Proof.
  unfold wt, sample_val, inner_val; cbn. unfold num_ok; cbn. repeat split; try discriminate; auto; try lia.
  - constructor; [cbn; intros [H|[]]; discriminate|]. constructor; [intros []|constructor].
  - constructor; [cbn; intros [H|[]]; discriminate|]. constructor; [intros []|constructor].
Qed.

(** A message with [S n] nested messages. *)
Fixpoint deep (n : nat) : val :=
  match n with
  | O => VStruct [VNum 1; VPtr None] None
  | S k => VStruct [VNum 1; VPtr (Some (deep k))] None
  end.
Lemma deep_typed : forall n, wt sample (TStruct 1) (deep n).
Proof. unfold wt. induction n; cbn; unfold num_ok; cbn; repeat split; auto; try lia; discriminate. Qed.
Lemma deep_nested : forall n, nested sample (S n) 1 (Some (deep n)).
Proof.
  induction n as [|n IH]; [constructor|]. eapply nest_in; [|exact IH].
  exists [VNum 1; VPtr (Some (deep n))], None, (mkF 2 1 TagBytes false false TagNone TagNone (TPtr (TStruct 1)) None),
    (VPtr (Some (deep n))), (VPtr (Some (deep n))).
  repeat split; try reflexivity; [cbn; auto|]. constructor. reflexivity.
Qed.

(** The sample message seen through other iteration orders. *)
Definition sample_val' : val := VStruct
  [VNum (2^32 - 1); VStr [x68; x69]; VPtr (Some (VNum 0)); VSlice [VNum 1; VNum (2^32 - 2)] [VUninit];
   VSlice [VPtr (Some inner_val); VPtr None] [];
   VMap (Some [(VStr [], VPtr None); (VStr [x61], VPtr (Some inner_val))]);
   VIface (Some (1%nat, Some (VStr [x21]))); VMap (Some [(VNum (2^32 - 3), VNum 0); (VNum 3, VNum 300)]);
   VSlice [VNum 17] []; VBytes (Some [xff])] (Some [xf8; x07; x05]).
Lemma sample_same : vsame sample_val sample_val'.
Proof.
  assert (R : forall l, Forall2 (fun a b : val * val => fst a = fst b /\ vsame (snd a) (snd b)) l l)
    by (induction l; constructor; auto using same_refl).
  apply same_struct. repeat (apply Forall2_cons; [first [apply same_refl|eapply same_map; [apply Permutation.perm_swap|apply R]]|]).
  constructor.
Qed.
