(** Property theorems about descriptors. *)
From Verif Require Import Base Value Desc DescProofs Sample.
From Coq Require Import Lia.
Open Scope Z_scope.

(** C20.  [l]: the fields of a struct, in any order.  [sort_fields] and [build_tables]
    are what parsing does with them; it fails exactly on duplicate numbers; after that
    [GetField_tables] finds exactly the declared fields ([None] would be an index out of
    range). *)
Theorem C20_field_lookup : forall l, Forall (fun f => 1 <= f_id f < 2^31) l ->
  (NoDup (map f_id l) ->
   exists m0 m1, build_tables (sort_fields l) = Some (m0, m1) /\
     forall v, 0 <= v < 2^31 ->
       exists r, GetField_tables m0 m1 v = Some r /\ (forall f, r = Some f <-> In f l /\ f_id f = v)) /\
  (~ NoDup (map f_id l) -> build_tables (sort_fields l) = None).
Proof. exact lookup_tables. Qed.
Print Assumptions C20_field_lookup.
Example C20_ex : Forall (fun f => 1 <= f_id f < 2^31) (rev sample_fields) /\ NoDup (map f_id (rev sample_fields)) /\
  exists m0 m1, build_tables (sort_fields (rev sample_fields)) = Some (m0, m1) /\
    option_map (option_map f_T) (GetField_tables m0 m1 2000) = Some (Some TBytes) /\
    option_map (option_map f_T) (GetField_tables m0 m1 11) = Some None /\
    option_map (option_map f_T) (GetField_tables m0 m1 (2^31 - 1)) = Some None /\
    option_map (option_map f_T) (GetField_tables m0 m1 8) = Some (Some TString).
Proof.
  split; [repeat (constructor; [cbn; lia|]); constructor|]. split.
  - cbn. repeat (constructor; [cbn; lia|]). constructor.
  - do 2 eexists. split; [vm_compute; reflexivity|]. repeat split; vm_compute; reflexivity.
Qed.
