(** Well-typed memory: all trees seen in it are well-typed, and messages nest in memory as
    they nest in the trees. *)
From Coq Require Import Lia.
From Verif Require Import Base Wire Coder MapTables Value WireVal Desc Encoder Sizer MsgSpec ValFacts Heap EncoderH SizerH HeapSpec HeapProofs.
Open Scope nat_scope.

Section T.
Variable E : env.
Variable h : heap.
Hypothesis W : wf_env E.
Notation U := (unroll h).
Notation R := (R h).
Notation oR := (oR h).

Lemma zero_R : forall K id p q, oR (S K) p q -> R (S K) (match p with Some v => v | None => sd_zero (E id) end)
                                              (match q with Some x => x | None => embed (sd_zero (E id)) end).
Proof.
  intros K id [v|] [x|] O; try contradiction; [exact O|]. exists (S K). split; [lia|]. symmetry. now apply zero_embed.
Qed.
Lemma omitted_R : forall id v x, R 1 v x -> omitted E (TStruct id) v = omitted E (TStruct id) (view h x).
Proof.
  intros id v x (N & L & ->). destruct N; [lia|]. cbn [omitted]. f_equal. unfold view. apply unroll_zero.
Qed.
Lemma elem_fwd : forall K t v x id q, R (S K) v x -> helem_msg h t x id q -> exists p, elem_msg t v id p /\ oR K p q.
Proof.
  intros K t v x id q (N & L & ->) H. destruct H as [id x|id p].
  - exists (Some (U N x)). split; [constructor|]. exists N. split; [lia|reflexivity].
  - destruct N; [lia|]. destruct p as [p|]; cbn [option_map].
    + exists (Some (U N (load h p))). split; [apply em_ptr|]. exists N. split; [lia|reflexivity].
    + exists None. split; [apply em_ptr|exact I].
Qed.
Lemma elem_bwd : forall K t v x id p, R (S K) v x -> elem_msg t v id p -> exists q, helem_msg h t x id q /\ oR K p q.
Proof.
  intros K t v x id p (N & L & E0) H. destruct H as [id v|id p].
  - exists (Some x). split; [constructor|]. exists N. split; [lia|assumption].
  - destruct N; [lia|]. destruct x as [| | | |q| | | |]; try discriminate. injection E0 as ->. exists (option_map (load h) q). split; [constructor|].
    destruct q as [q|]; [|exact I]. exists N. split; [lia|reflexivity].
Qed.
Lemma In_F2 : forall {A B} (Q : A -> B -> Prop) l l' b, Forall2 Q l l' -> In b l' -> exists a, In a l /\ Q a b.
Proof. intros A B Q l l' b F. induction F as [|x y l l' H F IH]; intros [].
  - subst. exists x. split; [now left|assumption].
  - destruct (IH H0) as (a & I & Z). exists a. split; [now right|assumption].
Qed.
Lemma In_F1 : forall {A B} (Q : A -> B -> Prop) l l' a, Forall2 Q l l' -> In a l -> exists b, In b l' /\ Q a b.
Proof. intros A B Q l l' b F. induction F as [|x y l l' H F IH]; intros [].
  - subst. exists y. split; [now left|assumption].
  - destruct (IH H0) as (a & I & Z). exists a. split; [now right|assumption].
Qed.

Lemma holds_fwd : forall K f v x id q, 1 <= K -> R (S (S K)) v x -> hholds E h f x id q -> exists p, holds_msg E f v id p /\ oR K p q.
Proof.
  intros K f v x id q HK X H. destruct H as [id x T O|id p T|t a o l c y id q T I M|kt t a k y id q T I M].
  - exists (Some v). split; [|apply (R_mono h (S (S K)) K); [lia|exact X]]. apply hm_val; [exact T|]. rewrite (omitted_R id v x); [exact O|]. apply (R_mono h (S (S K)) 1); [lia|exact X].
  - destruct X as (N & L & ->). destruct N; [lia|]. exists (Some (U N (load h p))). split; [apply (hm_ptr E f id); exact T|]. exists N. split; [lia|reflexivity].
  - pose proof (elems_R h _ _ _ X) as F. destruct X as (N & L & ->). destruct N; [lia|]. cbn in F. destruct (In_F2 _ _ _ _ F I) as (v & Iv & Rv).
    destruct (elem_fwd K t v y id q Rv M) as (p & EM & O). exists p. split; [|exact O]. exact (hm_list E f t _ _ v id p T Iv EM).
  - pose proof (entries_R h _ _ _ X) as F. destruct X as (N & L & ->). destruct N; [lia|]. cbn in F. destruct (In_F2 _ _ _ _ F I) as ([k' v] & Iv & _ & Rv).
    destruct (elem_fwd K t v y id q Rv M) as (p & EM & O). exists p. split; [|exact O]. exact (hm_map E f kt t _ k' v id p T Iv EM).
Qed.
Lemma holds_bwd : forall K f v x id p, 1 <= K -> R (S (S K)) v x -> holds_msg E f v id p -> exists q, hholds E h f x id q /\ oR K p q.
Proof.
  intros K f v x id p HK X H. destruct H as [id v T O|id v T|t e sp y id p T I M|kt t m k y id p T I M].
  - exists (Some x). split; [|apply (R_mono h (S (S K)) K); [lia|exact X]]. apply hh_val; [exact T|]. rewrite <- (omitted_R id v x); [exact O|]. apply (R_mono h (S (S K)) 1); [lia|exact X].
  - destruct X as (N & L & E0). destruct N; [lia|]. destruct x as [| | | |[q|]| | | |]; try discriminate. injection E0 as ->.
    exists (Some (load h q)). split; [apply hh_ptr; exact T|]. exists N. split; [lia|reflexivity].
  - pose proof (elems_R h _ _ _ X) as F. destruct X as (N & L & E0). destruct N; [lia|]. destruct x as [| | | | |a o l c| | |]; try discriminate. cbn in F.
    destruct (In_F1 _ _ _ _ F I) as (x & Ix & Rx). destruct (elem_bwd K t y x id p Rx M) as (q & EM & O). exists q. split; [|exact O]. exact (hh_list E h f t a o l c x id q T Ix EM).
  - pose proof (entries_R h _ _ _ X) as F. destruct X as (N & L & E0). destruct N; [lia|]. destruct x as [| | | | | |[a|]| |]; try discriminate. cbn in F.
    destruct (In_F1 _ _ _ _ F I) as ([k' x] & Ix & _ & Rx). destruct (elem_bwd K t y x id p Rx M) as (q & EM & O). exists q. split; [|exact O]. exact (hh_map E h f kt t a k' x id q T Ix EM).
Qed.

Lemma sub_fwd : forall K id p q id' q', 1 <= K -> oR (S (S (S K))) p q -> hsubmsg E h id q id' q' -> exists p', submsg E id p id' p' /\ oR K p' q'.
Proof.
  intros K id p q id' q' HK O (slots & unk & f & slot & x & Z & I & Ns & One & H).
  destruct (zero_R _ id p q O) as (N & L & Ev). rewrite Z, unroll_struct in Ev.
  assert (exists v, R (S (S K)) v x /\ match f_oneof f with None => v = U N slot | Some w => U N slot = VIface (Some (w, Some v)) end) as (v & Rv & Ov).
  { destruct (f_oneof f) as [w|].
    - destruct One as (lq & -> & ->). destruct N; [lia|]. exists (U N (load h lq)). split; [exists N; split; [lia|reflexivity]|reflexivity].
    - subst x. exists (U N slot). split; [exists N; split; [lia|reflexivity]|reflexivity]. }
  destruct (holds_fwd K f v x id' q' HK Rv H) as (p' & HM & O'). exists p'. split; [|exact O'].
  exists (map (U N) slots), unk, f, (U N slot), v. split; [exact Ev|]. split; [exact I|]. split; [now rewrite nth_error_map, Ns|]. split; [exact Ov|exact HM].
Qed.
Lemma sub_bwd : forall K id p q id' p', 1 <= K -> oR (S (S (S K))) p q -> submsg E id p id' p' -> exists q', hsubmsg E h id q id' q' /\ oR K p' q'.
Proof.
  intros K id p q id' p' HK O (slots & unk & f & slot & v & Z & I & Ns & One & H).
  destruct (zero_R _ id p q O) as (N & L & Ev). rewrite Z in Ev.
  destruct (match q with Some x => x | None => embed (sd_zero (E id)) end) as [| | | | | | |sl un|] eqn:Q; try (destruct N; discriminate).
  rewrite unroll_struct in Ev. injection Ev as -> ->. rewrite nth_error_map in Ns. destruct (nth_error sl (f_slot f)) as [y|] eqn:Ny; [|discriminate]. injection Ns as <-.
  assert (exists x, R (S (S K)) v x /\ match f_oneof f with None => x = y | Some w => exists lq, y = HIface (Some (w, Some lq)) /\ x = load h lq end) as (x & Rx & Ox).
  { destruct (f_oneof f) as [w|].
    - destruct N; [lia|]. destruct y as [| | | | | | | |[[w' [lq|]]|]]; try discriminate. injection One as -> <-. exists (load h lq). split; [exists N; split; [lia|reflexivity]|eauto].
    - subst v. exists y. split; [exists N; split; [lia|reflexivity]|reflexivity]. }
  destruct (holds_bwd K f v x id' p' HK Rx H) as (q' & HM & O'). exists q'. split; [|exact O'].
  exists sl, un, f, y, x. split; [exact Q|]. split; [exact I|]. split; [exact Ny|]. split; [exact Ox|exact HM].
Qed.

Lemma nest_fwd : forall n id q, hnested E h n id q -> forall p, oR (4 * n + 1) p q -> nested E n id p.
Proof.
  intros n id q H. induction H as [id q|n id q id' q' S H IH]; intros p O; [constructor|].
  destruct (sub_fwd (4 * n + 1) id p q id' q') as (p' & SM & O'); [lia|eapply oR_mono; [|exact O]; lia|exact S|].
  apply (nest_in E n id p id' p' SM). now apply IH.
Qed.
Lemma nest_bwd : forall n id p, nested E n id p -> forall q, oR (4 * n + 1) p q -> hnested E h n id q.
Proof.
  intros n id p H. induction H as [id p|n id p id' p' S H IH]; intros q O; [constructor|].
  destruct (sub_bwd (4 * n + 1) id p q id' p') as (q' & SM & O'); [lia|eapply oR_mono; [|exact O]; lia|exact S|].
  apply (hnest_in E h n id q id' q' SM). now apply IH.
Qed.

(** ** Cycles *)
Lemma reach_nested : forall id p id' p' n, hreach E h id p id' p' -> hnested E h n id' p' -> exists m, n <= m /\ hnested E h m id p.
Proof.
  intros id p id' p' n H N. induction H as [|id p id1 p1 id2 p2 S H IH]; [eauto|]. destruct (IH N) as (m & L & M). exists (Datatypes.S m). split; [lia|]. econstructor; eassumption.
Qed.
Lemma nested_le : forall m id p, hnested E h m id p -> forall n, 1 <= n <= m -> hnested E h n id p.
Proof.
  intros m id p H. induction H as [id p|m id p id' p' S H IH]; intros n L; [replace n with 1 by lia; constructor|].
  destruct n as [|[|n]]; [lia|constructor|]. econstructor; [exact S|]. apply IH. lia.
Qed.
Lemma cycle_nested : forall id p id1 p1, hsubmsg E h id p id1 p1 -> hreach E h id1 p1 id p -> forall n, exists m, n <= m /\ hnested E h m id p.
Proof.
  intros id p id1 p1 S H n. induction n as [|n (m & L & M)].
  - exists 1. split; [lia|constructor].
  - destruct (reach_nested id1 p1 id p m H M) as (m' & L' & M'). exists (Datatypes.S m'). split; [lia|]. econstructor; eassumption.
Qed.

(** ** Typing *)
Variable Psi : nat -> option oty.
Hypothesis HO : heap_ok E h Psi.
Notation hwt := (hwt E h Psi).

Definition hslots (ts : list gotype) (l : list hv) : Prop := Forall2 hwt ts l.
Lemma hwt_struct : forall id l u, hwt (TStruct id) (HStruct l u) <-> hslots (sd_slots (E id)) l /\ match u with Some _ => sd_unknown (E id) = true | None => True end.
Proof.
  intros id l u. cbn [HeapSpec.hwt]. unfold hslots.
  assert (A : forall ts l, (fix go (ts : list gotype) (l : list hv) {struct l} : Prop :=
    match l with [] => match ts with [] => True | _ :: _ => False end
               | x :: r => match ts with [] => False | t' :: ts' => hwt t' x /\ go ts' r end end) ts l <-> Forall2 hwt ts l).
  { clear. intros ts l. revert ts. induction l as [|x l IH]; intros [|t ts]; split; intro H; try constructor; try contradiction; try (inversion H; fail).
    - now destruct H. - apply IH. now destruct H. - inversion H; subst. assumption. - inversion H; subst. now apply IH. }
  rewrite A. reflexivity.
Qed.
Lemma sub_hwt : forall path t x t', hwt t x -> path_ty E t path = Some t' -> hwt t' (fold_left sub path x).
Proof.
  induction path as [|i path IH]; intros t x t' H P; cbn in *; [congruence|].
  destruct t as [| | |id| | | | |]; try discriminate. destruct (nth_error (sd_slots (E id)) i) as [ti|] eqn:Ni; [|discriminate].
  apply (IH ti); [|exact P]. destruct x; try contradiction; try discriminate. apply hwt_struct in H. destruct H as [F _]. unfold hslots in F. cbn [sub].
  clear - F Ni. revert i Ni. induction F as [|t x ts l H F IH]; intros [|i] Ni; cbn in *; try discriminate; [congruence|]. now apply IH.
Qed.
Lemma load_hwt : forall p t, points E h Psi p t -> hwt t (load h p).
Proof.
  intros p t (t0 & P & L & T). unfold load. destruct (HO _ _ P) as (l & Hl & F). rewrite Hl in *. cbn [cells] in *. apply (sub_hwt _ t0); [|exact T].
  rewrite Forall_forall in F. apply F. now apply nth_In.
Qed.
Lemma keys_inj : forall n k l, match k with TScalar _ | TString => True | _ => False end -> Forall (hwt k) l -> NoDup l -> NoDup (map (U n) l).
Proof.
  intros n k l Hk F N. assert (A : forall x y, hwt k x -> hwt k y -> U n x = U n y -> x = y).
  { intros x y X Y. destruct x, y; cbn in X, Y; try (destruct k; contradiction); destruct k; try contradiction; try discriminate; destruct n; cbn; congruence. }
  induction N as [|x l Hx N IH]; cbn; constructor; inversion F as [|? ? FX FL]; subst; [|now apply IH].
  rewrite in_map_iff. intros (y & EQ & Iy). apply Hx. rewrite (A x y); [exact Iy|exact FX| |now symmetry]. rewrite Forall_forall in FL. now apply FL.
Qed.
Lemma firstn_F : forall {A} (P : A -> Prop) n l, Forall P l -> Forall P (firstn n l).
Proof. intros A P n l F. revert n. induction F; intros [|n]; cbn; constructor; auto. Qed.
Lemma skipn_F : forall {A} (P : A -> Prop) n l, Forall P l -> Forall P (skipn n l).
Proof. intros A P n l F. revert n. induction F; intros [|n]; cbn; auto. Qed.
Lemma window_F : forall t a o l c, hwt (TSlice t) (HSlice a o l c) -> Forall (hwt t) (elems h a o l) /\ Forall (hwt t) (spares h a o l c).
Proof.
  intros t a o l c [L [->|[P _]]]; unfold elems, spares.
  - replace l with 0 by lia. split; constructor.
  - destruct (HO _ _ P) as (cs & -> & F). cbn [cells]. split; now apply firstn_F, skipn_F.
Qed.

Lemma unroll_wt : forall n t x, hwt t x -> wt E t (U n x).
Proof.
  unfold wt. induction n as [|n IHn].
  - intros t x. revert t. induction x as [| | | |p|a o l c|m|l u F|[[w p]|]] using hv_ind'; intros t H.
    + destruct H. + exact H. + exact H. + exact H.
    + cbn in *. destruct t; try contradiction. destruct p; exact I.
    + cbn in *. destruct t; try contradiction. split; exact I.
    + cbn in *. destruct t; try contradiction. destruct m; exact I.
    + destruct t as [| | |id| | | | |]; try contradiction. apply hwt_struct in H. destruct H as [Fs Hu]. rewrite unroll_struct. apply wtg_struct. split.
      * clear - F Fs. unfold hslots in Fs. revert F. induction Fs as [|t x ts l H Fs IH]; intro F; inversion F as [|? ? FX FL]; subst; cbn; constructor; [now apply FX|now apply IH].
      * destruct u; cbn; auto.
    + cbn in *. destruct t; try contradiction. destruct (lookup_alt w alts); [|contradiction]. destruct p; exact I.
    + cbn in *. destruct t; try contradiction. exact I.
  - intros t x. revert t. induction x as [| | | |p|a o l c|m|l u F|[[w p]|]] using hv_ind'; intros t H.
    + destruct H. + exact H. + exact H. + exact H.
    + cbn in *. destruct t; try contradiction. destruct p as [p|]; [|exact I]. apply IHn. now apply load_hwt.
    + destruct t as [| | | | |t| | |]; try contradiction. destruct (window_F t a o l c H) as [A B]. cbn [unroll]. apply wtg_slice. split; rewrite Forall_map.
      * eapply Forall_impl; [|exact A]. intros x. apply IHn.
      * eapply Forall_impl; [|exact B]. intros x X. eapply wtg_weaken; [| |exact (IHn _ _ X)]; [discriminate|auto].
    + destruct t as [| | | | | |kt vt| |]; try contradiction. cbn in H. cbn [unroll]. destruct m as [a|]; [|exact I]. apply wtg_map.
      destruct (HO _ _ H) as (m & Hm & Hk & F & ND). rewrite Hm. cbn [entries]. split.
      * rewrite Forall_map. eapply Forall_impl; [|exact F]. intros [k x] [A B]. cbn [fst snd] in *. split; now apply IHn.
      * rewrite map_map. cbn [fst]. rewrite <- (map_map fst (U n)). apply (keys_inj n kt); [exact Hk| |exact ND]. rewrite Forall_map. eapply Forall_impl; [|exact F]. now intros [k x] [A B].
    + destruct t as [| | |id| | | | |]; try contradiction. apply hwt_struct in H. destruct H as [Fs Hu]. rewrite unroll_struct. apply wtg_struct. split.
      * clear - F Fs. unfold hslots in Fs. revert F. induction Fs as [|t x ts l H Fs IH]; intro F; inversion F as [|? ? FX FL]; subst; cbn [map]; constructor; [now apply FX|now apply IH].
      * destruct u; cbn; auto.
    + cbn in *. destruct t; try contradiction. destruct (lookup_alt w alts); [|contradiction]. destruct p as [p|]; [|exact I]. apply IHn. now apply load_hwt.
    + cbn in *. destruct t; try contradiction. exact I.
Qed.
End T.
