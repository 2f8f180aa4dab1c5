(** Theorems about the decoder's allocator (C18) and the descriptor cache (C19). *)
From Verif Require Import Base Span SpanProofs Cache CacheProofs.
From Coq Require Import Lia.
Open Scope N_scope.

(** * C18: blocks are aligned, inside their object and disjoint

    [history addr l] serves the requests [l], in any order and by any number of pooled
    decoders, none of which exists at the beginning.  [addr] is the address the Go runtime
    gives to each object: it is arbitrary, up to the objects lying below 2^64.  Blocks of different
    runtime objects are disjoint by [disjoint]'s definition; two objects that are alive at
    the same time do not overlap by the runtime's own guarantee. *)
Theorem C18_blocks : forall addr l blocks objects,
  history addr l = (blocks, objects) -> heap_ok addr objects -> Forall request_ok l ->
  Forall2 (fun r b => b_len b = r_n r /\ inside objects b /\
      (b_off b = 0 \/ address addr objects b mod r_align r = 0) /\
      (r_n r <= 1024 -> r_abi r = false -> address addr objects b mod r_align r = 0)) l blocks /\
  pairwise disjoint blocks.
Proof. exact history_spec. Qed.
Print Assumptions C18_blocks.

(** Memory holds a byte for every position of every object; [fill b x mem] overwrites the
    block [b].  What one block holds never changes when another one is written. *)
Definition memory := nat -> N -> N.
Definition fill (b : block) (x : N -> N) (mem : memory) : memory :=
  fun k i => if Nat.eqb k (b_obj b) && (b_off b <=? i) && (i <? b_off b + b_len b) then x (i - b_off b) else mem k i.
Theorem C18_writes : forall addr l blocks objects i j b1 b2 x mem,
  history addr l = (blocks, objects) -> heap_ok addr objects -> Forall request_ok l -> nth_error blocks i = Some b1 -> nth_error blocks j = Some b2 -> i <> j ->
  forall n, n < b_len b2 -> fill b1 x mem (b_obj b2) (b_off b2 + n) = mem (b_obj b2) (b_off b2 + n).
Proof.
  intros addr l blocks objects i j b1 b2 x mem H HO F B1 B2 NE n L.
  destruct (history_spec _ _ _ _ H HO F) as [_ PW]. specialize (PW i j b1 b2 B1 B2 NE (b_obj b2) (b_off b2 + n)).
  unfold fill. destruct (Nat.eqb (b_obj b2) (b_obj b1) && _ && _) eqn:C; [|reflexivity]. exfalso. apply PW.
  apply Bool.andb_true_iff in C as [C C3]. apply Bool.andb_true_iff in C as [C1 C2].
  apply PeanoNat.Nat.eqb_eq in C1. apply N.leb_le in C2. apply N.ltb_lt in C3. split; split; auto; lia.
Qed.
Print Assumptions C18_writes.

(** Two decoders, an odd address, requests that share a chunk, one that needs a new chunk
    and one that goes to the runtime. *)
Definition sample_addr : heap := fun k _ => 4099 + 1048576 * N.of_nat k.
Definition sample_requests : list request :=
  [mkReq 0 5 1 false; mkReq 0 8 8 false; mkReq 1 4 4 false; mkReq 0 1024 8 false; mkReq 0 1024 8 false;
   mkReq 0 1024 8 false; mkReq 0 1020 4 false; mkReq 1 2000 8 false; mkReq 0 16 8 true].
Example C18_sample : Forall request_ok sample_requests /\ heap_ok sample_addr (snd (history sample_addr sample_requests)) /\
  fst (history sample_addr sample_requests) =
    [mkBlock 0 0 5; mkBlock 0 5 8; mkBlock 1 1 4; mkBlock 0 13 1024; mkBlock 0 1037 1024; mkBlock 0 2061 1024;
     mkBlock 2 1 1020; mkBlock 3 0 2000; mkBlock 4 0 16].
Proof.
  split; [|split; [|vm_compute; reflexivity]].
  2:{ set (o := snd _). vm_compute in o. intros k sz H. unfold osize in H. cbn in H.
      do 5 (destruct k as [|k]; [injection H as <-; vm_compute; reflexivity|]). destruct k; discriminate H. }
  repeat constructor; unfold request_ok, pow2; cbn [r_align];
    first [exists 0; split; [lia|reflexivity] | exists 2; split; [lia|reflexivity] | exists 3; split; [lia|reflexivity]].
Qed.

(** * C19: the descriptor cache *)

(** A lookup of type [k] returns what was published for [k] at some moment between the
    beginning and the end of that very lookup. *)
Theorem C19_lookup : forall tr s t k r, run (LGet t k r :: tr) s -> saw t k r tr.
Proof. exact get_saw. Qed.
Print Assumptions C19_lookup.

(** Hence a lookup that begins after the publication finds the descriptor. *)
Theorem C19_fresh : forall between before s t k r sd,
  run (LGet t k r :: between ++ LBeg t k :: before) s -> quiet t between ->
  published before k = Some sd -> r = Some sd.
Proof.
  intros between before s t k r sd R Q P. pose proof (get_saw _ _ _ _ _ R) as (now & old & E & QN & IG & ->).
  inversion R as [|? s0 ? ? R0 _]; subst. apply run_inv in R0 as [_ O].
  assert (X : exists c, old = c ++ LBeg t k :: before).
  { destruct IG as (b & c & -> & QB). rewrite app_assoc in E.
    assert (U : forall x y x' y', quiet t x -> quiet t x' -> x ++ LBeg t k :: y = x' ++ LBeg t k :: y' -> x = x' /\ y = y').
    { clear. induction x as [|a x IH]; intros y x' y' QX QX' H; destruct x' as [|a' x']; cbn in H.
      - injection H as ->. auto.
      - injection H as <- _. inversion QX' as [|? ? W _]. destruct W. reflexivity.
      - injection H as -> _. inversion QX as [|? ? W _]. destruct W. reflexivity.
      - injection H as -> H. inversion QX; inversion QX'; subst. destruct (IH y x' y') as [-> ->]; auto. }
    destruct (U between before (now ++ b) c Q ltac:(apply Forall_app; auto) E) as [_ ->]. now exists b. }
  destruct X as (c & ->). rewrite E in O. apply once_app in O.
  change (c ++ LBeg t k :: before) with (c ++ [LBeg t k] ++ before) in *. rewrite app_assoc in *. now apply once_suffix.
Qed.
Print Assumptions C19_fresh.

(** Whatever the interleaving, a type is published at most once and every GetOrParse or
    CacheGet that finds a descriptor for it returns the same one. *)
Theorem C19_one_descriptor : forall tr s t1 t2 k sd1 sd2, run tr s ->
  In (LRet t1 k (Some sd1)) tr -> In (LRet t2 k (Some sd2)) tr -> sd1 = sd2.
Proof. exact ret_same. Qed.
Print Assumptions C19_one_descriptor.
Theorem C19_published_once : forall later earlier s k sd sd', run (later ++ LPub k sd :: earlier) s ->
  ~ In (LPub k sd') earlier.
Proof. exact pub_once. Qed.
Print Assumptions C19_published_once.

(** Two types with the same bucket, and a third thread that looks one up between. *)
Ltac norm R := cbn [set_pc set_lock set_mem st_mem st_lock st_pc bk arrs nxt after_get] in R.
Example C19_collision : exists tr s, run tr s /\ bucket 5 = bucket 65541 /\
  In (LRet 2%nat 65541 (Some 8%nat)) tr /\ In (LRet 3%nat 5 (Some 7%nat)) tr.
Proof.
  pose proof run_init as R.
  eapply run_step in R; [|eapply (s_call _ 1%nat 5 WFirst); [reflexivity|now right]]. norm R.
  eapply run_step in R; [|eapply (s_load_nil _ 1%nat); reflexivity]. norm R.
  eapply run_step in R; [|eapply (s_lock _ 1%nat); reflexivity]. norm R.
  eapply run_step in R; [|eapply (s_load_nil _ 1%nat); reflexivity]. norm R.
  eapply run_step in R; [|eapply (s_parse _ 1%nat 5 7%nat); reflexivity]. norm R.
  eapply run_step in R; [|eapply (s_load_nil _ 1%nat); reflexivity]. norm R.
  eapply run_step in R; [|eapply (s_copy _ 1%nat); reflexivity]. norm R.
  eapply run_step in R; [|eapply (s_find_end _ 1%nat); reflexivity]. norm R.
  eapply run_step in R; [|eapply (s_store _ 1%nat); reflexivity]. norm R.
  eapply run_step in R; [|eapply (s_unlock _ 1%nat); reflexivity]. norm R.
  eapply run_step in R; [|eapply (s_call _ 2%nat 65541 WFirst); [reflexivity|now right]]. norm R.
  eapply run_step in R; [|eapply (s_load _ 2%nat); reflexivity]. norm R.
  eapply run_step in R; [|eapply (s_scan_next _ 2%nat); [reflexivity|reflexivity|discriminate]]. norm R.
  eapply run_step in R; [|eapply (s_scan_end _ 2%nat); reflexivity]. norm R.
  eapply run_step in R; [|eapply (s_lock _ 2%nat); reflexivity]. norm R.
  eapply run_step in R; [|eapply (s_load _ 2%nat); reflexivity]. norm R.
  eapply run_step in R; [|eapply (s_scan_next _ 2%nat); [reflexivity|reflexivity|discriminate]]. norm R.
  eapply run_step in R; [|eapply (s_scan_end _ 2%nat); reflexivity]. norm R.
  eapply run_step in R; [|eapply (s_parse _ 2%nat 65541 8%nat); reflexivity]. norm R.
  eapply run_step in R; [|eapply (s_load _ 2%nat); reflexivity]. norm R.
  eapply run_step in R; [|eapply (s_scan_next _ 2%nat); [reflexivity|reflexivity|discriminate]]. norm R.
  eapply run_step in R; [|eapply (s_scan_end _ 2%nat); reflexivity]. norm R.
  eapply run_step in R; [|eapply (s_copy _ 2%nat); reflexivity]. norm R.
  eapply run_step in R; [|eapply (s_find_next _ 2%nat); [reflexivity|reflexivity|discriminate]]. norm R.
  eapply run_step in R; [|eapply (s_call _ 3%nat 5 WCache); [reflexivity|now left]]. norm R.
  eapply run_step in R; [|eapply (s_load _ 3%nat); reflexivity]. norm R.
  eapply run_step in R; [|eapply (s_find_end _ 2%nat); reflexivity]. norm R.
  eapply run_step in R; [|eapply (s_store _ 2%nat); reflexivity]. norm R.
  eapply run_step in R; [|eapply (s_unlock _ 2%nat); reflexivity]. norm R.
  eapply run_step in R; [|eapply (s_ret _ 2%nat); reflexivity]. norm R.
  eapply run_step in R; [|eapply (s_scan_hit _ 3%nat); reflexivity]. norm R.
  eapply run_step in R; [|eapply (s_hit _ 3%nat); reflexivity]. norm R.
  eapply run_step in R; [|eapply (s_ret _ 3%nat); reflexivity]. norm R.
  eexists. eexists. split; [exact R|]. split; [reflexivity|]. cbn [In]. split; auto 10.
Qed.
