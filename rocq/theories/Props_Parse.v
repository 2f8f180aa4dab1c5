(** Property theorems about struct tags and the validation of struct types. *)
From Coq Require Import Strings.String Init.Byte Lia.
From Verif Require Import Base Wire Coder MapTables Value Desc MsgSpec Encoder Sizer Decoder Sample SampleDec
  GoStr TagParse Parse StrFacts TagSpec TagProofs ParseProofs SampleGo DescProofs EncFacts Props_Encode Props_Decode.
Import StringSyntax.
Open Scope N_scope.

(** C21.  [tag_text a] is the tag written for a field with the attributes [a]
    (TagSpec.v). *)

(** False of the code when a default value contains a comma: what follows the comma is
    read as if it were a part of the tag.  The default value "a,packed" of an optional
    string makes it packed; "1,2" changes the number of the field. *)
Theorem C21_refuted : exists a b, attrs_ok a /\ attrs_ok b /\
  a_packed a = false /\ option_map p_packed (parseStructTag (tag_text a)) = Some true /\
  a_num b = 1 /\ option_map p_id (parseStructTag (tag_text b)) = Some 2%Z.
Proof.
  exists (mkA TagBytes 1 Opt false (bs "x") None false None false (Some (bs "a,packed"))),
         (mkA TagBytes 1 Opt false (bs "x") None false None false (Some (bs "1,2"))).
  repeat split; try (vm_compute; discriminate); try reflexivity; vm_compute; intuition discriminate.
Qed.
Print Assumptions C21_refuted.

(** Proved when the parts of the default value after its first comma, if any, mean nothing
    as parts of a tag. *)
Theorem C21_tags_partial : forall a, attrs_ok a -> Forall meaningless (def_rest a) ->
  parseStructTag (tag_text a) =
  Some (mkTag (Z.of_N (a_num a)) (a_enc a)
              (match a_label a with Req => true | _ => false end)
              (match a_label a with Rep => true | _ => false end) (a_packed a)).
Proof. exact tag_read. Qed.
Print Assumptions C21_tags_partial.
(** A number that does not fit in 32 bits, anywhere in a tag, is refused, not truncated. *)
Theorem C21_numbers : forall tag part, In part (Split x2c tag) -> part <> [] ->
  Forall (fun c => 48 <= b2n c <= 57) part -> 2^32 <= dec_value 0 part -> parseStructTag tag = None.
Proof. exact big_number_refused. Qed.
Print Assumptions C21_numbers.
Example C21_numbers_ex :
  let part := bs "4294967297" in In part (Split x2c (bs "varint,4294967297,opt")) /\
  Forall (fun c => 48 <= b2n c <= 57) part /\ 2^32 <= dec_value 0 part.
Proof. split; [vm_compute; auto|]. split; [|vm_compute; discriminate]. repeat constructor; vm_compute; discriminate. Qed.
(** Groups are refused: in a tag whatever else it says, and as the encoding of map keys and
    values. *)
Theorem C21_groups : forall tag part, TrimSpace part = bs "group" ->
  (In part (Split x2c tag) -> parseStructTag tag = None) /\
  (forall a b, Split x2c tag = a ++ part :: b ->
     Forall (fun s => ~ exists e, is_encoding e = true /\ TrimSpace s = enc_word e) a -> parseKVTag tag = None).
Proof.
  intros tag part G. split; [intro I; exact (group_refused tag part I G)|].
  intros a b Q F. apply (kv_group_refused tag a part b Q); [|exact G].
  eapply Forall_impl; [|exact F]. intros s N. cbv beta in N.
  destruct (encoding_word (TrimSpace s)) as [e|] eqn:W; [|reflexivity]. exfalso. apply N. exists e.
  unfold encoding_word in W.
  repeat (match type of W with (if str_eqb ?x ?w then _ else _) = _ => destruct (str_eqb_spec x w) as [H|_] end;
          [injection W as <-; split; [reflexivity|exact H]|]).
  discriminate.
Qed.
Print Assumptions C21_groups.
Example C21_groups_ex : In (bs " group") (Split x2c (bs "varint,1, group")) /\ TrimSpace (bs " group") = bs "group" /\
  Split x2c (bs "1,group,varint") = [bs "1"] ++ bs "group" :: [bs "varint"].
Proof. split; [vm_compute; auto|]. split; vm_compute; reflexivity. Qed.
Example C21_ex :
  let a := mkA TagZigZag64 536870911 Rep true (bs "some_name") (Some (bs "someName")) true None false
               (Some (bs "-5, it's ignored")) in
  attrs_ok a /\ Forall meaningless (def_rest a) /\
  tag_text a = bs "zigzag64,536870911,rep,packed,name=some_name,json=someName,proto3,def=-5, it's ignored".
Proof.
  cbn zeta. split; [|split].
  - repeat split; try (vm_compute; discriminate); try reflexivity; vm_compute; intuition discriminate.
  - constructor; [|constructor]. split; [vm_compute; intuition discriminate|]. right. exists x69. split; [vm_compute; auto|reflexivity].
  - vm_compute. reflexivity.
Qed.

(** C22.  [describe] is parsing and validation of a struct declaration.  [wf_env] (MsgSpec)
    is what Marshal, Size and Unmarshal rely on: the code selected for a field fits the
    memory of the field.  [loose_shape] (ParseProofs.v) lists the field types that are
    accepted but not handled. *)

(** The full statement is false: a []*int32 field is accepted and then read as []int32. *)
Theorem C22_refuted : exists d s v, describe d = POk s /\
  wt (fun _ => s) (TStruct 0) v /\ Marshal (fun _ => s) (APtr 0 (Some v)) = Panic.
Proof.
  exists (mkD [plain (TSlice (TPtr (TScalar Int32))) (bs "varint,1,rep,name=x")] [] false 24
              (VStruct [VSlice [] []] None)).
  eexists. exists (VStruct [VSlice [VPtr (Some (VNum 1))] []] None).
  split; [vm_compute; reflexivity|]. split; [|vm_compute; reflexivity].
  unfold wt; cbn. unfold num_ok; cbn. repeat split; auto; try lia; discriminate.
Qed.
Print Assumptions C22_refuted.

(** Which field types are accepted. *)
Theorem C22_accepted : forall f,
  (type_ok (f_T f) = true -> checkTypeMatch f = true -> supported f = true \/ loose_shape f) /\
  (supported f = true -> type_ok (f_T f) = true /\ checkTypeMatch f = true /\ ~ loose_shape f).
Proof.
  intro f. split; [apply accepted_shapes|]. intro H. destruct (supported_accepted f H) as [A B].
  split; [exact A|]. split; [exact B|]. now apply supported_not_loose.
Qed.
Print Assumptions C22_accepted.

(** Struct types accepted without such fields and without unnumbered fields are safe: no
    run panics or reads memory at a wrong type. *)
Theorem C22_safe_partial : forall D E, (forall id, go_decl E (D id)) -> (forall id, describe (D id) = POk (E id)) ->
  (forall id f, In f (sd_fields (E id)) -> ~ loose_shape f /\ f_id f <> 0%Z) ->
  wf_env E /\ forall P id v b, wt E (TStruct id) v ->
    ((exists s n, Marshal E (APtr id (Some v)) = Ok s /\ Size E (APtr id (Some v)) = Ok n) \/
     (Marshal E (APtr id (Some v)) = Err EMaxDepth /\ Size E (APtr id (Some v)) = Err EMaxDepth)) /\
    ((exists v', Unmarshal E P b (APtr id (Some v)) = DOk v' tt /\ wt E (TStruct id) v') \/
     (exists v' e, Unmarshal E P b (APtr id (Some v)) = DErr v' e)).
Proof.
  intros D E G H L.
  assert (W : wf_env E).
  { intro id. apply (describe_wf E (D id) (E id) (G id) (H id)); intros f I; apply (L id f I). }
  split; [exact W|]. intros P id v b T. split; [|now apply C09_total].
  now apply Marshal_cases.
Qed.
Print Assumptions C22_safe_partial.
Example C22_ex : (forall id, go_decl sample (sample_go id)) /\ (forall id, describe (sample_go id) = POk (sample id)) /\
  (forall id f, In f (sd_fields (sample id)) -> ~ loose_shape f /\ f_id f <> 0%Z).
Proof.
  split; [exact sample_go_ok|]. split; [exact sample_described|].
  intros id f I. destruct (wf_fields _ _ (sample_wf id) f I) as (R & S & _).
  split; [now apply supported_not_loose|lia].
Qed.

(** C55.  The full statement, that using any struct type returns an error or succeeds, is
    false: a field number of 2^31 or more in a tag is an index out of range. *)
Theorem C55_refuted : exists d, describe d = PPanic /\
  d_fields d = [plain (TScalar Int32) (bs "varint,4294967295,opt,name=x")].
Proof.
  exists (mkD [plain (TScalar Int32) (bs "varint,4294967295,opt,name=x")] [] false 4 (VStruct [VNum 0] None)).
  split; vm_compute; reflexivity.
Qed.
Print Assumptions C55_refuted.
(** Proved for types whose field numbers are at most 2^31 - 1 (they are then not negative
    as an int32), whose protobuf_oneof fields are interfaces and whose wrappers have a
    tagged field. *)
Theorem C55_no_panic_partial : forall d,
  (forall g p, In g (d_fields d) \/ (exists w, In (w, [g]) (d_wrappers d)) ->
     parseStructTag (gf_tag g) = Some p -> (0 <= p_id p)%Z) ->
  (forall g, In g (d_fields d) -> gf_tag g = [] -> gf_oneof g <> [] -> exists alts, gf_type g = TIface alts) ->
  (forall w g, In (w, [g]) (d_wrappers d) -> gf_tag g <> []) ->
  describe d <> PPanic.
Proof. exact describe_no_panic. Qed.
Print Assumptions C55_no_panic_partial.
Example C55_ex : let d := mkD [plain (TScalar Int32) (bs "varint,1,opt"); plain TString (bs "fixed32,2,opt")] []
                         false 4 (VStruct [VNum 0; VStr []] None) in
  (forall g p, In g (d_fields d) \/ (exists w, In (w, [g]) (d_wrappers d)) ->
     parseStructTag (gf_tag g) = Some p -> (0 <= p_id p)%Z) /\ describe d = PErr.
Proof.
  cbn zeta. split; [|vm_compute; reflexivity].
  intros g p [I|(w & [])] H. cbn in I. destruct I as [<-|[<-|[]]]; vm_compute in H; injection H as <-; cbn; lia.
Qed.
