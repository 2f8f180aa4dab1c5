(** C53: calls that run concurrently and share pools. *)
From Coq Require Import Lia.
From Verif Require Import Base Wire Coder Value Desc MsgSpec Encoder EncFacts Sizer Decoder Pools PoolSys PoolCalls PoolRun Sample SampleDec.
Open Scope N_scope.

(** What the call returns when it is alone: the functions of Encoder.v, Sizer.v and Decoder.v. *)
Definition returns (E : env) (c : call) (o : outcome) : Prop :=
  match c, o with
  | CMarshal b a, OMarshal r => r = MarshalAppend E b a
  | CSize a, OSize r => r = Size E a
  | CUnmarshal b a, OUnmarshal r => forall P, r = Unmarshal E P b a
  | _, _ => False
  end.
(** A message to be encoded is a Go value of its type. *)
Definition call_ok (E : env) (c : call) : Prop := match c with CMarshal _ a => arg_ok E a | _ => True end.

Lemma run_returns : forall E, wf_env E -> forall c, call_ok E c -> wp [] (run E c) (fun _ o => returns E c o).
Proof.
  intros E WF [b a|a|b a] OK; cbn [run]; apply wp_bind.
  - eapply wp_mono; [|now apply marshal_run]. intros st r ->. reflexivity.
  - eapply wp_mono; [|apply size_run]. intros st r ->. reflexivity.
  - eapply wp_mono; [|apply (unmarshal_run E WF (fun _ _ => (VUninit, VUninit)))]. intros st r -> P. cbn. apply PoolProofs.Unmarshal_indep. exact WF.
Qed.
Lemma runs_ok : forall E, wf_env E -> forall calls, Forall (call_ok E) calls -> forall pl m, NoDup (map snd pl) ->
  sys_ok (map (returns E) calls) (start pl m (map (run E) calls)).
Proof.
  intros E WF calls OK pl m N. apply start_ok; [exact N|]. induction OK as [|c calls H OK IH]; cbn [map]; constructor; [|exact IH]. now apply run_returns.
Qed.

(** In every interleaving, whatever the pools held before, whichever objects they hand out and
    whichever they drop: a call that has ended has returned what it returns alone; no object is
    with two calls, nor with a call and in a pool; and from every point, every call can still end,
    by its own operations only. *)
Theorem C53_concurrent : forall E, wf_env E -> forall calls, Forall (call_ok E) calls ->
  forall pl m, NoDup (map snd pl) -> forall s, steps (start pl m (map (run E) calls)) s ->
    (forall j c h o, nth_error calls j = Some c -> nth_error (s_procs s) j = Some (mkP h (Ret o)) -> returns E c o) /\
    NoDup (map snd (s_pool s) ++ held s) /\
    (forall j c, nth_error calls j = Some c -> exists s' h o, steps s s' /\ s_procs s' = set_nth j (mkP h (Ret o)) (s_procs s)).
Proof.
  intros E WF calls OK pl m N s S. assert (I0 := steps_ok _ _ _ (runs_ok E WF calls OK pl m N) S). assert (I1 := I0). destruct I1 as [ND F].
  assert (NTH : forall j c, nth_error calls j = Some c -> exists p, nth_error (s_procs s) j = Some p /\ proc_ok (s_mem s) (returns E c) p).
  { intros j c Hj. clear -F Hj. remember (map (returns E) calls) as Qs eqn:EQ. revert j calls EQ Hj. induction F as [|Q p Qs ps X F IH]; intros j [|c0 calls] EQ Hj; try discriminate; [destruct j; discriminate|].
    injection EQ as -> EQ. destruct j; cbn in *; [injection Hj as ->; eauto|]. eapply IH; eauto. }
  split; [|split; [exact ND|]].
  - intros j c h o Hc Hp. destruct (NTH j c Hc) as (p & Hp' & W). rewrite Hp in Hp'. injection Hp' as <-. exact W.
  - intros j c Hc. destruct (NTH j c Hc) as ([h g] & Hp & _). exact (proc_ends _ g s h j I0 Hp).
Qed.
Print Assumptions C53_concurrent.

(** Two messages whose nested maps use the Encoder's scratch key at both levels, one decoding of maps. *)
Definition pool_tree (k : N) : val :=
  VStruct [VPtr None; VMap (Some [(VNum k, VPtr (Some (VStruct [VPtr None; VMap (Some [(VNum 7, VPtr None)]); VSlice [] []] None))); (VNum (k + 1), VPtr None)]); VSlice [] []] None.
Definition pool_calls : list call :=
  [CMarshal [] (APtr 4 (Some (pool_tree 1))); CMarshal [] (APtr 4 (Some (pool_tree 300))); CUnmarshal sample_input (APtr 0 (Some sample_val))].
Lemma pool_calls_ok : Forall (call_ok sample) pool_calls.
Proof.
  assert (T : forall k, k + 1 < 2 ^ 32 -> wt sample (TStruct 4) (pool_tree k)).
  { intros k Hk. unfold wt, pool_tree. cbn. unfold num_ok. cbn. change (2 ^ 32) with 4294967296 in *. repeat split; try discriminate; auto; try lia.
    - repeat constructor. now intros [].
    - constructor; [cbn; intros [X|[]]; injection X; lia|]. repeat constructor. now intros []. }
  constructor; [apply (T 1); reflexivity|]. constructor; [apply (T 300); reflexivity|]. repeat constructor.
Qed.
Lemma set3 : forall {A} (a b c x y z : A), set_nth 2 z (set_nth 1 y (set_nth 0 x [a; b; c])) = [x; y; z].
Proof. reflexivity. Qed.
Example C53_concurrent_ex : exists s,
  steps (start [(PEnc, 3); (PMap TString, 4)]%nat (fun _ => mkCt [Byte.x2a] VUninit sample_val) (map (run sample) pool_calls)) s /\
  exists h1 h2 h3, s_procs s = [mkP h1 (Ret (OMarshal (Marshal sample (APtr 4 (Some (pool_tree 1))))));
                                mkP h2 (Ret (OMarshal (Marshal sample (APtr 4 (Some (pool_tree 300))))));
                                mkP h3 (Ret (OUnmarshal (DOk sample_result tt)))] /\
  exists b1 b2, Marshal sample (APtr 4 (Some (pool_tree 1))) = Ok b1 /\ Marshal sample (APtr 4 (Some (pool_tree 300))) = Ok b2 /\ length b1 = 18%nat /\ length b2 = 20%nat.
Proof.
  set (s0 := start _ _ _). assert (N : NoDup (map snd [(PEnc, 3); (PMap TString, 4)]%nat)) by (repeat constructor; cbn; intuition discriminate).
  assert (T := fun s S => C53_concurrent sample sample_wf pool_calls pool_calls_ok _ (fun _ => mkCt [Byte.x2a] VUninit sample_val) N s S).
  destruct (T s0 (ss_refl _)) as (_ & _ & T0). destruct (T0 0%nat _ eq_refl) as (s1 & h1 & o1 & S1 & P1).
  destruct (T s1 S1) as (_ & _ & T1). destruct (T1 1%nat _ eq_refl) as (s2 & h2 & o2 & S2 & P2). assert (S12 := steps_trans _ _ _ S1 S2).
  destruct (T s2 S12) as (_ & _ & T2). destruct (T2 2%nat _ eq_refl) as (s3 & h3 & o3 & S3 & P3). assert (S13 := steps_trans _ _ _ S12 S3).
  assert (P : s_procs s3 = [mkP h1 (Ret o1); mkP h2 (Ret o2); mkP h3 (Ret o3)]) .
  { rewrite P3, P2, P1. unfold s0, pool_calls, start. cbn [s_procs map]. apply set3. }
  destruct (T s3 S13) as (R & _ & _).
  assert (R1 := R 0%nat _ h1 o1 eq_refl ltac:(rewrite P; reflexivity)). assert (R2 := R 1%nat _ h2 o2 eq_refl ltac:(rewrite P; reflexivity)). assert (R3 := R 2%nat _ h3 o3 eq_refl ltac:(rewrite P; reflexivity)).
  exists s3. split; [exact S13|]. exists h1, h2, h3. split.
  - rewrite P. destruct o1, o2, o3; try contradiction. cbn [returns] in R1, R2, R3. rewrite R1, R2, (R3 pool0), sample_decodes. reflexivity.
  - assert (L : forall r : res bytes, match r with Ok b => Some (length b) | _ => None end = Some 18%nat -> exists b, r = Ok b /\ length b = 18%nat) by (intros [b| | |] X; try discriminate; injection X; eauto).
    assert (L' : forall r : res bytes, match r with Ok b => Some (length b) | _ => None end = Some 20%nat -> exists b, r = Ok b /\ length b = 20%nat) by (intros [b| | |] X; try discriminate; injection X; eauto).
    destruct (L (Marshal sample (APtr 4 (Some (pool_tree 1))))) as (b1 & E1 & L1); [vm_compute; reflexivity|].
    destruct (L' (Marshal sample (APtr 4 (Some (pool_tree 300))))) as (b2 & E2 & L2); [vm_compute; reflexivity|]. exists b1, b2. auto.
Qed.
