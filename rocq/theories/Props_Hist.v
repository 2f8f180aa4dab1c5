(** Property theorems about descriptor parsing after other types were parsed. *)
From Coq Require Import Strings.String Init.Byte Lia.
From Verif Require Import Base Wire Coder MapTables Value Desc GoStr TagParse Parse SampleGo Hist HistSpec HistProofs HistMain HistEnd HistAgain.
Import StringSyntax.
Open Scope nat_scope.

(** C30.  [history] are the states after any calls of GetOrParse (HistSpec.v), of which some
    may have failed. *)

(** False of the code.  The types are
      type A struct { F *B; Bad ... }     type B struct { G *A }
    where B is refused because A is.  It is accepted once A has been tried, with a
    descriptor that goes wrong in use: A's parsing fails after B's succeeded, B's is not
    undone, and its field G has a Type whose S stays nil. *)
Definition struct_AB (bad : list gofield) (i : nat) : godecl :=
  match i with
  | 0 => mkD (plain (TPtr (TStruct 1)) (bs "bytes,1,opt,name=f") :: bad) [] false 0 (VStruct [] None)
  | _ => mkD [plain (TPtr (TStruct 0)) (bs "bytes,1,opt,name=g")] [] false 0 (VStruct [] None)
  end.
Lemma snd_pair : forall A B (p : A * B) b, snd p = b -> p = (fst p, b).
Proof. intros A B [a b'] b E. cbn in *. now rewrite E. Qed.
Lemma history_once : forall D fuel t, snd (GetOrParse D fuel empty t) <> RFuel -> history D (fst (GetOrParse D fuel empty t)).
Proof. intros D fuel t N. apply (hist_call D empty fuel t _ (snd (GetOrParse D fuel empty t))); [apply hist_empty|apply surjective_pairing|exact N]. Qed.
Theorem C30_refuted : exists D fuel h, history D h /\
  snd (GetOrParse D fuel empty (TStruct 1)) = RErr /\
  exists s f o v, snd (GetOrParse D fuel h (TStruct 1)) = ROk s /\
    so_fields (h_structs (fst (GetOrParse D fuel h (TStruct 1))) s) = [f] /\
    to_V (h_types (fst (GetOrParse D fuel h (TStruct 1))) (of_T f)) = Some o /\
    h_types (fst (GetOrParse D fuel h (TStruct 1))) o = v /\ to_rt v = TStruct 0 /\ to_S v = None.
Proof.
  exists (struct_AB [plain (TScalar Int32) (bs "group,2,opt")]), 20, (fst (GetOrParse (struct_AB [plain (TScalar Int32) (bs "group,2,opt")]) 20 empty (TStruct 0))).
  split; [apply history_once; vm_compute; discriminate|].
  split; [vm_compute; reflexivity|]. do 4 eexists. split; [vm_compute; reflexivity|]. split; [vm_compute; reflexivity|]. split; [vm_compute; reflexivity|].
  split; [reflexivity|]. split; vm_compute; reflexivity.
Qed.
Print Assumptions C30_refuted.

(** The same if only the finalization of A fails, and if A's parsing panics, from which the
    caller may have recovered: the results of B without A before it, of A, and of B after
    it. *)
Definition A_then_B (bad : gofield) : res nat * res nat * res nat :=
  let D := struct_AB [bad] in
  let '(h, rA) := GetOrParse D 20 empty (TStruct 0) in
  (snd (GetOrParse D 20 empty (TStruct 1)), rA, snd (GetOrParse D 20 h (TStruct 1))).
Theorem C30_refuted_more :
  A_then_B (plain (TScalar Int32) (bs "bytes,2,opt")) = (RErr, RErr, ROk 1) /\
  A_then_B (plain (TScalar Int32) (bs "varint,4294967295,opt")) = (RPanic, RPanic, ROk 1).
Proof. split; vm_compute; reflexivity. Qed.
Print Assumptions C30_refuted_more.

(** Proved: a type that is valid (every struct type it needs is valid by itself, as
    HistSpec.v defines it without caches) is accepted after any history of successes,
    failures and panics of any types, by a call that ends, and the descriptor is as
    declared. *)
Theorem C30_valid_partial : forall D U i t h fuel,
  valid D i -> enough D U i -> t = TStruct i \/ t = TPtr (TStruct i) -> history D h -> 2 * length U < fuel ->
  exists h' s, GetOrParse D fuel h t = (h', ROk s) /\ faithful D h' s i.
Proof. intros D U i t h fuel V En Et H L. apply (valid_accepted D U i t h fuel V En); [destruct Et as [->| ->]; reflexivity|exact H|exact L]. Qed.
Print Assumptions C30_valid_partial.

(** Proved: as long as no call has failed, exactly the valid types are accepted, so that
    it does not matter which types were parsed before.  (The fields of the types have no maps
    whose keys contain structs: such keys inside a list are not validated.) *)
Theorem C30_clean_partial : forall D i t h fuel h' r,
  (forall i sd f, describe (D i) = POk sd -> In f (sd_fields sd) -> keys_plain (f_T f) = true) ->
  t = TStruct i \/ t = TPtr (TStruct i) -> successes D h -> GetOrParse D fuel h t = (h', r) -> r <> RFuel ->
  ((exists s, r = ROk s) <-> valid D i).
Proof.
  intros D i t h fuel h' r P Et H E N. apply (clean_accepted D P i t h fuel h' r); auto. destruct Et as [->| ->]; reflexivity.
Qed.
Print Assumptions C30_clean_partial.

(** Proved: a call that has failed with an error, in whatever state, fails again. *)
Theorem C30_again_partial : forall D fuel fuel2 h t h',
  GetOrParse D fuel h t = (h', RErr) -> fuel <= fuel2 -> exists h2, GetOrParse D fuel2 h' t = (h2, RErr).
Proof. intros D fuel fuel2 h t h' E L. exact (fails_again D fuel fuel2 h t h' L E). Qed.
Print Assumptions C30_again_partial.
(** A type whose parsing and one whose finalization fails in the middle of a cycle *)
Example C30_again_ex : forall tag, tag = bs "group,2,opt" \/ tag = bs "bytes,2,opt" ->
  let r := GetOrParse (struct_AB [plain (TScalar Int32) tag]) 20 empty (TPtr (TStruct 1)) in
  r = (fst r, RErr) /\ 4 <= h_tn (fst r).
Proof.
  intros tag [-> | ->]; (split; [apply snd_pair|]; vm_compute; first [reflexivity|auto with arith]).
Qed.

(** A valid type in a cycle, after a failure of a type that refers to it. *)
Definition struct_ABC (i : nat) : godecl :=
  match i with
  | 0 | 1 => struct_AB [mapf (TMap TString (TPtr (TStruct 0))) (bs "bytes,2,rep") (bs "bytes,1,opt") (bs "bytes,2,opt")] i
  | _ => mkD [plain (TPtr (TStruct 1)) (bs "bytes,1,opt"); plain TString (bs "varint,2,opt")] [] false 0 (VStruct [] None)
  end.
Definition types_AB : list gotype :=
  [TOther; TStruct 0; TStruct 1; TPtr (TStruct 0); TPtr (TStruct 1); TString; TMap TString (TPtr (TStruct 0))].
Lemma needs_AB : forall j, needs struct_ABC 1 j -> j = 0 \/ j = 1.
Proof.
  enough (A : forall i j, needs struct_ABC i j -> i = 1 -> j = 0 \/ j = 1) by (intros j H; eapply A; eauto). intros i j H Ei. induction H as [|i j sd f k N IH E Hf Hk]; [now right|]. destruct (IH Ei) as [Ej|Ej]; rewrite Ej in E; clear Ei IH N.
  - assert (exists sd, describe (struct_ABC 0) = POk sd /\ flat_map (fun f => ids (f_T f)) (sd_fields sd) = [1; 0]) as (sd' & E' & F) by (eexists; split; vm_compute; reflexivity).
    rewrite E in E'. injection E' as <-. assert (X : In k [1; 0]) by (rewrite <- F; apply in_flat_map; eauto). destruct X as [<-|[<-|[]]]; auto.
  - assert (exists sd, describe (struct_ABC 1) = POk sd /\ flat_map (fun f => ids (f_T f)) (sd_fields sd) = [0]) as (sd' & E' & F) by (eexists; split; vm_compute; reflexivity).
    rewrite E in E'. injection E' as <-. assert (X : In k [0]) by (rewrite <- F; apply in_flat_map; eauto). destruct X as [<-|[]]; auto.
Qed.
Example C30_valid_ex : valid struct_ABC 1 /\ enough struct_ABC types_AB 1 /\
  let r := GetOrParse struct_ABC 20 empty (TPtr (TStruct 2)) in snd r = RErr /\ history struct_ABC (fst r) /\ cachedStructs (fst r) 0 <> None.
Proof.
  split; [|split].
  - intros j H. apply needs_AB in H as [-> | ->]; eexists; vm_compute; reflexivity.
  - assert (IN : forall l sd (i : nat), describe (struct_ABC i) = POk sd -> map f_T (sd_fields sd) = l -> incl l types_AB ->
      forall sd' f, describe (struct_ABC i) = POk sd' -> In f (sd_fields sd') -> In (f_T f) types_AB).
    { intros l sd i E M Inc sd' f E' Hf. rewrite E in E'. injection E' as <-. apply Inc. rewrite <- M. now apply in_map. }
    split; [vm_compute; auto|]. split; [vm_compute; auto|]. intros t [<-|[<-|[<-|[<-|[<-|[<-|[<-|[]]]]]]]]; try exact Logic.I; try (vm_compute; tauto).
    + eapply IN; [vm_compute; reflexivity|vm_compute; reflexivity|]. intros x [<-|[<-|[]]]; vm_compute; tauto.
    + eapply IN; [vm_compute; reflexivity|vm_compute; reflexivity|]. intros x [<-|[]]; vm_compute; tauto.
  - split; [vm_compute; reflexivity|]. split; [apply history_once; vm_compute; discriminate|]. vm_compute. discriminate.
Qed.
Example C30_clean_ex : (forall i sd f, describe (struct_ABC i) = POk sd -> In f (sd_fields sd) -> keys_plain (f_T f) = true) /\
  exists h, successes struct_ABC h /\ cachedStructs h 0 <> None /\
    snd (GetOrParse struct_ABC 20 h (TStruct 1)) <> RFuel /\ snd (GetOrParse struct_ABC 20 h (TStruct 2)) = RErr.
Proof.
  split.
  - assert (K : forall (i : nat) sd, describe (struct_ABC i) = POk sd -> forallb (fun f => keys_plain (f_T f)) (sd_fields sd) = true ->
      forall sd' f, describe (struct_ABC i) = POk sd' -> In f (sd_fields sd') -> keys_plain (f_T f) = true).
    { intros i sd E F sd' f E' Hf. rewrite E in E'. injection E' as <-. rewrite forallb_forall in F. now apply F. }
    intros [|[|i]].
    + eapply K; vm_compute; reflexivity.
    + eapply K; vm_compute; reflexivity.
    + intros sd f E. change (describe (struct_ABC (S (S i)))) with (describe (struct_ABC 2)) in E. vm_compute in E. discriminate.
  - exists (fst (GetOrParse struct_ABC 20 empty (TStruct 0))). split.
    + apply (succ_call struct_ABC empty 20 (TStruct 0) _ 0); [apply succ_empty|]. apply snd_pair. vm_compute. reflexivity.
    + repeat split; vm_compute; try reflexivity; discriminate.
Qed.
