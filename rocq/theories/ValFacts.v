(** Induction over values, typing lemmas. *)
From Verif Require Import Base WireSpec Value Desc MsgSpec.
From Coq Require Import Lia Sorting.Sorted.
Open Scope N_scope.

Definition optP {A} (P : A -> Prop) (o : option A) : Prop := match o with Some a => P a | None => True end.

Section ValInd.
Variable P : val -> Prop.
Hypothesis HU : P VUninit.
Hypothesis HN : forall n, P (VNum n).
Hypothesis HS : forall s, P (VStr s).
Hypothesis HB : forall s, P (VBytes s).
Hypothesis HP : forall p, optP P p -> P (VPtr p).
Hypothesis HL : forall e sp, Forall P e -> Forall P sp -> P (VSlice e sp).
Hypothesis HM : forall m, optP (Forall (fun kv => P (fst kv) /\ P (snd kv))) m -> P (VMap m).
Hypothesis HT : forall l u, Forall P l -> P (VStruct l u).
Hypothesis HI : forall i, optP (fun wi => optP P (snd wi)) i -> P (VIface i).

Fixpoint val_ind' (v : val) : P v :=
  let fl := fix go (l : list val) : Forall P l :=
    match l with [] => Forall_nil _ | x :: r => Forall_cons x (val_ind' x) (go r) end in
  match v with
  | VUninit => HU
  | VNum n => HN n
  | VStr s => HS s
  | VBytes s => HB s
  | VPtr p => HP p (match p return optP P p with Some x => val_ind' x | None => I end)
  | VSlice e sp => HL e sp (fl e) (fl sp)
  | VMap m =>
      HM m (match m return optP _ m with
            | Some m =>
                (fix go (l : list (val * val)) : Forall (fun kv => P (fst kv) /\ P (snd kv)) l :=
                   match l with
                   | [] => Forall_nil _
                   | kv :: r => Forall_cons kv (conj (val_ind' (fst kv)) (val_ind' (snd kv))) (go r)
                   end) m
            | None => I
            end)
  | VStruct l u => HT l u (fl l)
  | VIface i =>
      HI i (match i return optP (fun wi => optP P (snd wi)) i with
            | Some wo =>
                match snd wo as o return optP P o with Some x => val_ind' x | None => I end
            | None => I
            end)
  end.
End ValInd.

Section Typing.
Variable E : env.
Variable Q : nat -> bytes -> Prop.
Notation wtg := (wtg E Q).

Lemma all_Forall : forall (P : val -> Prop) l,
  (fix go l := match l with [] => True | x :: r => P x /\ go r end) l <-> Forall P l.
Proof.
  induction l as [|x r IH]; split; intro H; auto; [now constructor; [|apply IH]|].
  inversion H; subst. split; [assumption|now apply IH].
Qed.

Lemma wtg_slice : forall u t e sp,
  wtg u (TSlice t) (VSlice e sp) <-> Forall (wtg u t) e /\ Forall (wtg (u || noscan t) t) sp.
Proof.
  intros. cbn [MsgSpec.wtg]. rewrite <- !all_Forall. reflexivity.
Qed.

Lemma wtg_map : forall u kt vt m,
  wtg u (TMap kt vt) (VMap (Some m)) <->
  Forall (fun kv => wtg u kt (fst kv) /\ wtg u vt (snd kv)) m /\ NoDup (map fst m).
Proof.
  intros. cbn [MsgSpec.wtg].
  assert (A : forall l, (fix go l := match l with
              | [] => True | (k, x) :: r => (wtg u kt k /\ wtg u vt x) /\ go r end) l <->
            Forall (fun kv => wtg u kt (fst kv) /\ wtg u vt (snd kv)) l).
  { induction l as [|[k x] r IH]; split; intro H; auto.
    - destruct H. constructor; [assumption|now apply IH].
    - inversion H; subst. split; [assumption|now apply IH]. }
  rewrite A. reflexivity.
Qed.

Lemma wtg_struct : forall u id slots unk,
  wtg u (TStruct id) (VStruct slots unk) <->
  Forall2 (wtg u) (sd_slots (E id)) slots /\
  match unk with Some bs => sd_unknown (E id) = true /\ Q id bs | None => True end.
Proof.
  intros. cbn [MsgSpec.wtg].
  assert (A : forall l ts, (fix go ts l {struct l} :=
             match l, ts with
             | [], [] => True
             | x :: r, t' :: ts' => wtg u t' x /\ go ts' r
             | _, _ => False
             end) ts l <-> Forall2 (wtg u) ts l).
  { induction l as [|x r IH]; intros [|t ts]; split; intro H; auto; try easy; try (now inversion H).
    - destruct H. constructor; [assumption|now apply IH].
    - inversion H; subst. split; [assumption|now apply IH]. }
  rewrite A. reflexivity.
Qed.

(** Canonical forms of initialised values. *)
Lemma wt_scalar_inv : forall k v, wtg false (TScalar k) v -> exists n, v = VNum n /\ num_ok k n.
Proof. intros k [] H; cbn in H; try easy; eauto. Qed.
Lemma wt_string_inv : forall u v, wtg u TString v -> exists s, v = VStr s.
Proof. intros u [] H; cbn in H; try easy; eauto. Qed.
Lemma wt_bytes_inv : forall u v, wtg u TBytes v -> exists s, v = VBytes s.
Proof. intros u [] H; cbn in H; try easy; eauto. Qed.
Lemma wt_ptr_inv : forall u t v, wtg u (TPtr t) v -> exists p, v = VPtr p /\ optP (wtg u t) p.
Proof. intros u t [] H; cbn in H; try easy; try (eexists; split; [reflexivity|]; destruct p; easy). Qed.
Lemma wt_slice_inv : forall u t v, wtg u (TSlice t) v ->
  exists e sp, v = VSlice e sp /\ Forall (wtg u t) e /\ Forall (wtg (u || noscan t) t) sp.
Proof.
  intros u t [] H; try (cbn in H; easy). apply wtg_slice in H. eauto.
Qed.
Lemma wt_map_inv : forall u kt vt v, wtg u (TMap kt vt) v ->
  exists m, v = VMap m /\
    optP (fun m => Forall (fun kv => wtg u kt (fst kv) /\ wtg u vt (snd kv)) m /\ NoDup (map fst m)) m.
Proof.
  intros u kt vt [] H; try (cbn in H; easy). exists m. split; [reflexivity|].
  destruct m as [m|]; [|exact I]. now apply wtg_map in H.
Qed.
Lemma wt_struct_inv : forall u id v, wtg u (TStruct id) v ->
  exists slots unk, v = VStruct slots unk /\ Forall2 (wtg u) (sd_slots (E id)) slots /\
    match unk with Some bs => sd_unknown (E id) = true /\ Q id bs | None => True end.
Proof.
  intros u id [] H; try (cbn in H; easy). apply wtg_struct in H. eauto.
Qed.
Lemma wt_iface_inv : forall u alts v, u = false -> wtg u (TIface alts) v ->
  v = VIface None \/
  (exists w t, v = VIface (Some (w, None)) /\ lookup_alt w alts = Some t) \/
  (exists w x t, v = VIface (Some (w, Some x)) /\ lookup_alt w alts = Some t /\ wtg u t x).
Proof.
  intros u alts v ->. destruct v; cbn; try easy.
  destruct i as [[w o]|]; [|auto]. right. destruct (lookup_alt w alts) as [t|] eqn:L; [|easy].
  destruct o as [x|]; [right; exists w, x, t|left; exists w, t]; auto.
Qed.

Lemma Forall2_nth_error : forall {A B} (R : A -> B -> Prop) l1 l2 n a,
  Forall2 R l1 l2 -> nth_error l1 n = Some a -> exists b, nth_error l2 n = Some b /\ R a b.
Proof.
  intros A B R l1 l2 n a H. revert n. induction H as [|x y l1 l2 Hxy H IH]; intros [|n] Hn; try discriminate.
  - injection Hn as <-. exists y. auto.
  - now apply IH.
Qed.

(** ** Zero values *)
Hypothesis WF : wf_env E.

Lemma wt_zero_struct : forall u v id, v = sd_zero (E id) -> wtg u (TStruct id) v.
Proof.
  intros u v. induction v using val_ind'; intros id Hz;
    rewrite (wf_zero _ _ (WF id)) in Hz; try discriminate Hz.
  injection Hz as -> ->. apply wtg_struct. split; [|exact I].
  revert H. induction (sd_slots (E id)) as [|t ts IH]; intro H; [constructor|].
  cbn [map] in *. inversion H as [|? ? H1 H2]; subst. constructor; [|now apply IH].
  destruct t as [k| | |id'| | | | |]; cbn [zero_of]; try (cbn; auto; fail).
  - cbn. split; [destruct k; reflexivity|]. intros ->. reflexivity.
Qed.

Lemma wt_zero : forall u t, wtg u t (zero_of E t).
Proof.
  intros u [k| | |id| | | | |]; cbn [zero_of]; try (cbn; auto; fail).
  - cbn. split; [destruct k; reflexivity|]. intros ->. reflexivity.
  - now apply wt_zero_struct.
Qed.

Lemma wtp_base : forall id p, optP (wtg false (TStruct id)) p ->
  wtg false (TStruct id) (match p with Some v => v | None => sd_zero (E id) end).
Proof. intros id [v|] H; [exact H|now apply wt_zero_struct]. Qed.
End Typing.

Lemma wtg_weaken : forall E (Q Q' : nat -> bytes -> Prop) (u u' : bool), (u = true -> u' = true) ->
  (forall id bs, Q id bs -> Q' id bs) ->
  forall v t, wtg E Q u t v -> wtg E Q' u' t v.
Proof.
  intros E Q Q' u u' Hu HQ v. revert u u' Hu.
  induction v as [|n|s|s|p H|e sp H H0|m H|l unk H|i H] using val_ind'; intros u u' Hu t W; try exact W.
  - destruct W. split; auto.
  - cbn in *. destruct t; try easy. destruct p; [|exact I]. cbn in H. eauto.
  - destruct t; try easy. apply wtg_slice in W as [W1 W2]. apply wtg_slice. split.
    + rewrite Forall_forall in *. eauto.
    + rewrite Forall_forall in *. intros x I. eapply H0; [exact I| |apply W2, I].
      intro X. apply orb_prop in X as [X|X]; [now rewrite (Hu X)|rewrite X; apply orb_true_r].
  - destruct t; try easy. destruct m as [m|]; [|exact I]. apply wtg_map in W as [W1 W2]. apply wtg_map.
    split; [|assumption]. cbn in H. rewrite Forall_forall in *. intros kv I.
    destruct (H kv I), (W1 kv I). eauto.
  - destruct t as [| | |id| | | | |]; try easy. apply wtg_struct in W as [W1 W2]. apply wtg_struct.
    split; [|destruct unk; intuition].
    clear W2. induction W1; inversion H; subst; constructor; eauto.
  - cbn in *. destruct t; try easy. destruct i as [[w o]|]; [|exact I].
    destruct (lookup_alt w alts); [|easy]. destruct o; [|exact I]. cbn in H. eauto.
Qed.
