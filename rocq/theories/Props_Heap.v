(** Property theorems about encoding values in memory, which may share memory and be cyclic.
    [heap_ok E h Psi]: the heap [h] is well-typed; [points E h Psi p t]: [p] points to a variable
    of type [t] in it (HeapSpec.v).  [MarshalH], [SizeH]: EncoderH.v, SizerH.v. *)
From Coq Require Import Lia Init.Byte.
From Verif Require Import Base Value Desc MsgSpec Encoder Sizer EncFacts Sample Heap EncoderH SizerH HeapSpec HeapProofs HeapTyped.
Open Scope N_scope.

(** C07.  [hnested E h 1001 id (Some x)]: there are 1001 messages nested in each other,
    following references in the heap. *)
Theorem C07_memory : forall E h Psi, wf_env E -> heap_ok E h Psi -> forall id p, points E h Psi p (TStruct id) ->
  (hnested E h 1001 id (Some (load h p)) ->
     MarshalH E h (mkAH id (Some p)) = Err EMaxDepth /\ SizeH E h (mkAH id (Some p)) = Err EMaxDepth) /\
  (~ hnested E h 1001 id (Some (load h p)) ->
     exists s n, MarshalH E h (mkAH id (Some p)) = Ok s /\ SizeH E h (mkAH id (Some p)) = Ok n).
Proof.
  intros E h Psi W HO id p P. pose proof (load_hwt E h Psi HO p (TStruct id) P) as T.
  assert (A : forall n, R h n (unroll h n (load h p)) (load h p)) by (intro n; exists n; split; [apply le_n|reflexivity]).
  assert (L : forall d, (4 * d + 1 <= 4 * S d + 1)%nat) by (intro d; lia).
  remember (4 * S defaultRecursionMaxDepth + 1)%nat as M eqn:EM.
  pose proof (unroll_wt E h Psi HO M (TStruct id) (load h p) T) as TW.
  assert (B : R h (4 * defaultRecursionMaxDepth + 1) (unroll h M (load h p)) (load h p)).
  { apply (R_mono h M); [rewrite EM; apply L|apply A]. }
  destruct (Marshal_depth E W id _ TW) as [D1 D2]. cbn [Marshal MarshalAppend Size] in D1, D2.
  rewrite (struct_R E h W defaultRecursionMaxDepth id [] (Some (unroll h M (load h p))) (Some (load h p)) false B) in D1, D2.
  rewrite (size_struct_R E h W defaultRecursionMaxDepth id (Some (unroll h M (load h p))) (Some (load h p)) B) in D1, D2.
  split.
  - intro H. apply D1. apply (nest_fwd E h W _ _ _ H). unfold oR. change 1001%nat with (S defaultRecursionMaxDepth). rewrite <- EM. apply A.
  - intro H. apply D2. intro H'. apply H. apply (nest_bwd E h W _ _ _ H'). unfold oR. change 1001%nat with (S defaultRecursionMaxDepth). rewrite <- EM. apply A.
Qed.
Print Assumptions C07_memory.
(** A value that contains a message inside itself, however far down. *)
Theorem C07_cyclic : forall E h Psi, wf_env E -> heap_ok E h Psi -> forall id p, points E h Psi p (TStruct id) ->
  forall id1 x1 id2 x2, hreach E h id (Some (load h p)) id1 x1 -> hsubmsg E h id1 x1 id2 x2 -> hreach E h id2 x2 id1 x1 ->
  MarshalH E h (mkAH id (Some p)) = Err EMaxDepth /\ SizeH E h (mkAH id (Some p)) = Err EMaxDepth.
Proof.
  intros E h Psi W HO id p P id1 x1 id2 x2 H1 S H2. apply (C07_memory E h Psi W HO id p P).
  destruct (cycle_nested E h id1 x1 id2 x2 S H2 1001) as (m & L & N). destruct (reach_nested E h _ _ _ _ m H1 N) as (m' & L' & N').
  apply (nested_le E h m' _ _ N'). split; [apply (Nat.lt_0_succ 1000)|]. exact (Nat.le_trans _ _ _ L L').
Qed.
Print Assumptions C07_cyclic.
(** Sharing is invisible: the output is that for the tree one sees following more than 4004
    references in a row, so the theorems about trees apply. *)
Theorem C07_trees : forall E h, wf_env E -> forall id p N, (4 * 1001 < N)%nat ->
  MarshalH E h (mkAH id (Some p)) = Marshal E (APtr id (Some (unroll h N (load h p)))) /\
  SizeH E h (mkAH id (Some p)) = Size E (APtr id (Some (unroll h N (load h p)))).
Proof.
  intros E h W id p M L.
  assert (A : oR h (4 * defaultRecursionMaxDepth + 1) (Some (unroll h M (load h p))) (Some (load h p))).
  { exists M. split; [|reflexivity]. unfold lt in L. refine (Nat.le_trans _ _ _ _ L).
    change 1001%nat with (S defaultRecursionMaxDepth). generalize defaultRecursionMaxDepth. intro d. lia. }
  split; [exact (eq_sym (struct_R E h W _ id [] _ _ false A))|exact (eq_sym (size_struct_R E h W _ id _ _ A))].
Qed.
Print Assumptions C07_trees.
(** The same holds for a nil pointer, whatever is in the memory. *)
Theorem C07_nil : forall E h, wf_env E -> forall id,
  MarshalH E h (mkAH id None) = Marshal E (APtr id None) /\
  SizeH E h (mkAH id None) = Size E (APtr id None) /\ SizeH E h (mkAH id None) = Ok 0.
Proof. intros E h W id. split; [exact (eq_sym (struct_R E h W _ id [] None None false Logic.I))|split; reflexivity]. Qed.
Print Assumptions C07_nil.

(** Two elements of one slice that point to each other, and a map that refers to the first. *)
Definition h_cycle : heap := fun a =>
  match a with
  | 0%nat => OArr [HStruct [HPtr (Some (mkL 0 1 [])); HMap (Some 1%nat); HSlice 0 0 0 0] None;
               HStruct [HPtr (Some (mkL 0 0 [])); HMap None; HSlice 0 0 0 0] None]
  | 1%nat => OMap [(HNum 7, HPtr (Some (mkL 0 0 [])))]
  | 2%nat => OArr [HStruct [HPtr (Some (mkL 3 0 [])); HMap (Some 4%nat); HSlice 5 1 1 1] None]
  | 3%nat => OArr [HStruct [HPtr None; HMap None; HSlice 5 0 2 2] None]
  | 4%nat => OMap [(HNum 7, HPtr (Some (mkL 3 0 []))); (HNum 8, HPtr (Some (mkL 3 0 [])))]
  | 5%nat => OArr [HStruct [HNum 1; HPtr None] None; HStruct [HNum 2; HPtr (Some (mkL 5 0 []))] None]
  | _ => OArr []
  end.
Definition t_cycle : nat -> option oty := fun a =>
  match a with
  | 0 | 2 | 3 => Some (AArr (TStruct 4))
  | 1 | 4 => Some (AMap (TScalar Int32) (TPtr (TStruct 4)))
  | 5 => Some (AArr (TStruct 1))
  | _ => None
  end%nat.
Lemma h_cycle_ok : heap_ok sample h_cycle t_cycle.
Proof.
  assert (P : forall a i t, t_cycle a = Some (AArr t) -> (i < length (cells (h_cycle a)))%nat -> points sample h_cycle t_cycle (mkL a i []) t).
  { intros a i t A B. exists t. cbn [l_obj l_idx l_path path_ty]. auto. }
  intros a ty. destruct a as [|[|[|[|[|[|a]]]]]]; cbn [t_cycle]; intro H; try discriminate; injection H as <-; eexists; (split; [reflexivity|]).
  - repeat apply Forall_cons; try apply Forall_nil; cbn; repeat apply conj; auto; try reflexivity; apply P; cbn; auto.
  - split; [exact I|]. split; [repeat apply Forall_cons; try apply Forall_nil; cbn; repeat apply conj; auto; try reflexivity; try discriminate; apply P; cbn; auto|]. repeat constructor; cbn; intuition discriminate.
  - repeat apply Forall_cons; try apply Forall_nil; cbn; repeat apply conj; auto; try reflexivity; apply P; cbn; auto.
  - repeat apply Forall_cons; try apply Forall_nil; cbn; repeat apply conj; auto; try reflexivity; apply P; cbn; auto.
  - split; [exact I|]. split; [repeat apply Forall_cons; try apply Forall_nil; cbn; repeat apply conj; auto; try reflexivity; try discriminate; apply P; cbn; auto|]. repeat constructor; cbn; intuition discriminate.
  - repeat apply Forall_cons; try apply Forall_nil; cbn; repeat apply conj; auto; try reflexivity; try discriminate; apply P; cbn; auto.
Qed.
Example C07_heap_ex :
  points sample h_cycle t_cycle (mkL 0 0 []) (TStruct 4) /\
  hsubmsg sample h_cycle 4 (Some (load h_cycle (mkL 0 0 []))) 4 (Some (load h_cycle (mkL 0 1 []))) /\
  hreach sample h_cycle 4 (Some (load h_cycle (mkL 0 1 []))) 4 (Some (load h_cycle (mkL 0 0 []))) /\
  MarshalH sample h_cycle (mkAH 4 (Some (mkL 0 0 []))) = Err EMaxDepth /\
  SizeH sample h_cycle (mkAH 4 (Some (mkL 2 0 []))) = Ok 58.
Proof.
  split; [exists (TStruct 4); cbn; auto|]. split.
  { do 5 eexists. split; [reflexivity|]. split; [left; reflexivity|]. split; [reflexivity|]. split; [reflexivity|]. apply hh_ptr. reflexivity. }
  split.
  { eapply hr_in; [|apply hr_here]. do 5 eexists. split; [reflexivity|]. split; [left; reflexivity|]. split; [reflexivity|]. split; [reflexivity|]. apply hh_ptr. reflexivity. }
  split; vm_compute; reflexivity.
Qed.
