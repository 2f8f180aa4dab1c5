(** Go declarations of the sample messages, with the tags protoc-gen-go writes. *)
From Coq Require Import Strings.String Init.Byte Lia.
From Verif Require Import Base Wire Coder MapTables Value Desc MsgSpec Encoder Sizer EncFacts Sample GoStr TagParse Parse ParseProofs.
Import StringSyntax.
Open Scope N_scope.

Definition plain (t : gotype) (tag : bytes) : gofield := mkGF t tag [] [] [].
Definition mapf (t : gotype) (tag key val : bytes) : gofield := mkGF t tag key val [].

Definition sample_go (id : nat) : godecl :=
  match id with
  | O => mkD
      [plain (TScalar Int32) (bs "varint,1,opt,name=i,proto3");
       plain TString (bs "bytes,2,opt,name=s,proto3");
       plain (TPtr (TScalar Int64)) (bs "zigzag64,3,opt,name=o,proto3,oneof");
       plain (TSlice (TScalar Int32)) (bs "varint,4,rep,packed,name=p,proto3");
       plain (TSlice (TPtr (TStruct 1))) (bs "bytes,5,rep,name=l,proto3");
       mapf (TMap TString (TPtr (TStruct 1))) (bs "bytes,6,rep,name=m,proto3")
            (bs "bytes,1,opt,name=key") (bs "bytes,2,opt,name=value");
       mkGF (TIface sample_alts) [] [] [] (bs "c");
       mapf (TMap (TScalar Int32) (TScalar Int64)) (bs "bytes,9,rep,name=n,proto3")
            (bs "varint,1,opt,name=key") (bs "varint,2,opt,name=value");
       plain (TSlice (TScalar Uint32)) (bs "fixed32,10,rep,name=q");
       plain TBytes (bs "bytes,2000,opt,name=z,proto3")]
      [(1%nat, [plain TString (bs "bytes,8,opt,name=y,proto3,oneof")]);
       (0%nat, [plain (TScalar Int64) (bs "varint,7,opt,name=x,proto3,oneof")])]
      true 200 (sd_zero sample_desc)
  | 1%nat => mkD
      [plain (TScalar Int32) (bs "varint,1,opt,name=a,json=a1,proto3");
       plain (TPtr (TStruct 1)) (bs "bytes,2,opt,name=next,proto3")] [] true 40 (sd_zero inner_desc)
  | 2%nat => mkD
      [plain (TStruct 1) (bs "bytes,1,opt,name=v"); plain (TScalar Int32) (bs "varint,2,opt,name=k")]
      [] false 48 (sd_zero byval_desc)
  | 3%nat => mkD
      [plain (TScalar Bool) (bs "varint,1,opt,name=a"); plain (TSlice (TScalar Bool)) (bs "varint,2,rep,name=u");
       plain (TSlice (TScalar Bool)) (bs "varint,3,rep,packed,name=p");
       mapf (TMap (TScalar Bool) (TScalar Bool)) (bs "bytes,4,rep,name=m") (bs "varint,1,opt") (bs "varint,2,opt");
       mapf (TMap (TScalar Bool) TString) (bs "bytes,5,rep,name=g") (bs "varint,1,opt") (bs "bytes,2,opt");
       mapf (TMap (TScalar Bool) (TScalar Int32)) (bs "bytes,6,rep,name=h") (bs "varint,1,opt") (bs "varint,2,opt")]
      [] false 72 (sd_zero bools_desc)
  | 4%nat => mkD
      [plain (TPtr (TStruct 4)) (bs "bytes,1,opt,name=c");
       mapf (TMap (TScalar Int32) (TPtr (TStruct 4))) (bs "bytes,2,rep,name=m") (bs "varint,1,opt") (bs "bytes,2,opt");
       plain (TSlice (TStruct 1)) (bs "bytes,3,rep,name=l")] [] false 40 (sd_zero tree_desc)
  | 5%nat => mkD [plain (TStruct 4) (bs "bytes,1,opt,name=t")] [] false 40 (sd_zero outer_desc)
  | _ => mkD [] [] false 0 (VStruct [] None)
  end.

Lemma sample_described : forall id, describe (sample_go id) = POk (sample id).
Proof. intros [|[|[|[|[|[|id]]]]]]; vm_compute; reflexivity. Qed.

Lemma sample_go_ok : forall id, go_decl sample (sample_go id).
Proof.
  intros [|[|[|[|[|[|id]]]]]]; split; try reflexivity; try (cbn [sample_go d_wrappers d_fields]; intros; match goal with H : In _ [] |- _ => destruct H end).
  - intros j g alts w h N T I A.
    cbn in I. destruct I as [I|[I|[]]]; injection I as <- <-; cbn in N;
      do 10 (destruct j as [|j]; [injection N as <-; try discriminate T; injection T as <-; reflexivity|]); destruct j; discriminate N.
  - intros w l l' I J. cbn in I, J.
    destruct I as [I|[I|[]]]; destruct J as [J|[J|[]]]; congruence.
Qed.

Lemma Marshal_cases : forall E, wf_env E -> forall id v, wt E (TStruct id) v ->
  (exists s n, Marshal E (APtr id (Some v)) = Ok s /\ Size E (APtr id (Some v)) = Ok n) \/
  (Marshal E (APtr id (Some v)) = Err EMaxDepth /\ Size E (APtr id (Some v)) = Err EMaxDepth).
Proof.
  intros E WF id v Hv.
  pose proof (Marshal_wire E WF id (Some v) Hv) as M.
  pose proof (Size_wire E WF id v Hv) as Z.
  destruct (msg E false 1000 id (Some v)) as [m|]; [|auto].
  destruct M as (s & M & _), Z as (n & Z & _). left. eauto.
Qed.
