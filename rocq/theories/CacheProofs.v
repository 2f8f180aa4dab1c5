(** Every lookup sees a published state of the cache, whatever the interleaving. *)
From Verif Require Import Base Cache.
From Coq Require Import Lia Bool.
Open Scope N_scope.

(** ** Specification *)

(** The descriptor most recently published for type [k] (labels newest first). *)
Fixpoint published (tr : list label) (k : N) : option sdp :=
  match tr with
  | [] => None
  | LPub k' sd :: r => if k' =? k then Some sd else published r k
  | _ :: r => published r k
  end.

(** The label begins or ends a Get of thread [t]. *)
Definition get_event (t : nat) (l : label) : Prop :=
  match l with LBeg t' _ | LGet t' _ _ => t' = t | _ => False end.
Definition quiet (t : nat) (tr : list label) : Prop := Forall (fun l => ~ get_event t l) tr.

(** Thread [t] is in a call of Get for [k]. *)
Definition in_get (t : nat) (k : N) (tr : list label) : Prop :=
  exists b c, tr = b ++ LBeg t k :: c /\ quiet t b.
(** At some moment during the current Get of [t], [r] was what was published for [k]. *)
Definition saw (t : nat) (k : N) (r : option sdp) (tr : list label) : Prop :=
  exists now old, tr = now ++ old /\ quiet t now /\ in_get t k old /\ r = published old k.

(** ** Invariant *)

Fixpoint lookup (k : N) (l : list item) : option sdp :=
  match l with [] => None | (k', sd) :: r => if k' =? k then Some sd else lookup k r end.
Definition abs (m : mem) (k : N) : option sdp :=
  match bk m (bucket k) with Some p => lookup k (arrs m p) | None => None end.
Definition here (m : mem) (b : N) : list item :=
  match bk m b with Some p => arrs m p | None => [] end.

Definition critical (c : pc) : bool :=
  match c with
  | Parse _ | Copy _ _ | Find _ _ _ _ | Store _ _ _ | Unlock _ _ => true
  | Load w _ | Scan w _ _ _ | Hit w _ _ _ => match w with WSecond | WSet _ => true | _ => false end
  | _ => false
  end.
(** The slice a thread is building. *)
Definition private (c : pc) : option nat :=
  match c with Find _ _ p _ | Store _ _ p => Some p | _ => None end.
(** The published slice a thread is reading. *)
Definition reading (c : pc) : option nat :=
  match c with Scan _ _ p _ | Hit _ _ p _ => Some p | _ => None end.
(** The thread is about to publish for this type. *)
Definition setting (c : pc) : option N :=
  match c with
  | Parse k | Copy k _ | Find k _ _ _ | Store k _ _ => Some k
  | Load (WSet _) k | Scan (WSet _) k _ _ | Hit (WSet _) k _ _ => Some k
  | _ => None
  end.

(** What each program point guarantees. *)
Definition point (tr : list label) (m : mem) (t : nat) (c : pc) : Prop :=
  match c with
  | Load _ k => in_get t k tr
  | Scan w k p i => saw t k (lookup k (skipn i (arrs m p))) tr /\ (w = WSecond -> lookup k (skipn i (arrs m p)) = published tr k)
  | Hit _ k p i => exists sd r, skipn i (arrs m p) = (k, sd) :: r /\ saw t k (Some sd) tr
  | Find k sd p i => (i <= length (arrs m p))%nat /\ arrs m p = here m (bucket k) /\ lookup k (firstn i (arrs m p)) = None
  | Store k sd p => lookup k (arrs m p) = Some sd /\ forall k', k' <> k -> lookup k' (arrs m p) = lookup k' (here m (bucket k))
  | Unlock k (Some sd) | Ret k (Some sd) => published tr k = Some sd
  | _ => True
  end.

Record inv (tr : list label) (s : state) : Prop := {
  i_abs : forall k, abs (st_mem s) k = published tr k;
  i_bk : forall b p, bk (st_mem s) b = Some p -> (p < nxt (st_mem s))%nat;
  i_lock : forall t, critical (st_pc s t) = true -> st_lock s = Some t;
  i_read : forall t p, reading (st_pc s t) = Some p -> (p < nxt (st_mem s))%nat;
  i_priv : forall t p, private (st_pc s t) = Some p ->
     (p < nxt (st_mem s))%nat /\ (forall b, bk (st_mem s) b <> Some p) /\ (forall t', reading (st_pc s t') <> Some p);
  i_set : forall t k, setting (st_pc s t) = Some k -> published tr k = None;
  i_point : forall t, point tr (st_mem s) t (st_pc s t)
}.

Lemma quiet_cons : forall t l tr, ~ get_event t l -> quiet t tr -> quiet t (l :: tr).
Proof. intros. now constructor. Qed.
Lemma in_get_cons : forall t k l tr, ~ get_event t l -> in_get t k tr -> in_get t k (l :: tr).
Proof. intros t k l tr H (b & c & -> & Q). exists (l :: b), c. split; [reflexivity|now apply quiet_cons]. Qed.
Lemma in_get_beg : forall t k tr, in_get t k (LBeg t k :: tr).
Proof. intros. exists [], tr. split; [reflexivity|constructor]. Qed.
Lemma saw_cons : forall t k r l tr, ~ get_event t l -> saw t k r tr -> saw t k r (l :: tr).
Proof. intros t k r l tr H (a & b & -> & Q & G & E). exists (l :: a), b. split; [reflexivity|]. split; [now apply quiet_cons|auto]. Qed.
Lemma saw_now : forall t k r tr, in_get t k tr -> r = published tr k -> saw t k r tr.
Proof. intros t k r tr H E. exists [], tr. split; [reflexivity|]. split; [constructor|auto]. Qed.

Lemma lookup_app : forall k a b, lookup k (a ++ b) = match lookup k a with Some x => Some x | None => lookup k b end.
Proof. induction a as [|[k' sd] a IH]; intro b; cbn; [reflexivity|]. destruct (k' =? k); auto. Qed.
Lemma nth_skipn : forall A (l : list A) i x, nth_error l i = Some x -> skipn i l = x :: skipn (S i) l.
Proof. induction l as [|a l IH]; destruct i; intros x H; try discriminate; [now injection H as <-|]. cbn. now apply IH. Qed.
Lemma nth_skipn_none : forall A (l : list A) i, nth_error l i = None -> skipn i l = [].
Proof. intros A l i H. apply nth_error_None in H. now apply skipn_all2. Qed.
Lemma nth_firstn : forall A (l : list A) i x, nth_error l i = Some x -> firstn (S i) l = firstn i l ++ [x].
Proof. induction l as [|a l IH]; destruct i; intros x H; try discriminate; [now injection H as <-|]. cbn. f_equal. now apply IH. Qed.

Lemma set_sd_lookup : forall (l : list item) i k sd0 sd, nth_error l i = Some (k, sd0) -> lookup k (firstn i l) = None ->
  lookup k (set_sd l i sd) = Some sd /\ forall k', k' <> k -> lookup k' (set_sd l i sd) = lookup k' l.
Proof.
  intros l i k sd0 sd H L. unfold set_sd. rewrite H.
  assert (E : upd_nth i (k, sd) l = firstn i l ++ (k, sd) :: skipn (S i) l).
  { clear L. revert i H. induction l as [|a l IH]; destruct i; intro H; try discriminate; [reflexivity|]. cbn in *. now rewrite IH. }
  rewrite E, lookup_app, L. cbn [lookup]. rewrite N.eqb_refl. split; [reflexivity|].
  intros k' NE. transitivity (lookup k' (firstn i l ++ skipn i l)); [|now rewrite firstn_skipn].
  rewrite !lookup_app. rewrite (nth_skipn _ _ _ _ H). cbn [lookup]. replace (k =? k') with false by (symmetry; apply N.eqb_neq; congruence). reflexivity.
Qed.

(** Publishing happens once per type, so what is published stays. *)
Lemma published_keep : forall tr l k sd, (forall k' sd', l = LPub k' sd' -> published tr k' = None) ->
  published tr k = Some sd -> published (l :: tr) k = Some sd.
Proof.
  intros tr l k sd H P. destruct l; cbn; auto. destruct (N.eqb_spec k0 k) as [->|]; [|exact P].
  rewrite (H k sd0 eq_refl) in P. discriminate.
Qed.

Lemma published_tau : forall l tr k, (forall k' sd, l <> LPub k' sd) -> published (l :: tr) k = published tr k.
Proof. intros l tr k H. destruct l; cbn; auto. now destruct (H k0 sd). Qed.
(** Program points of other threads survive a step that changes only what they do not look at. *)
Lemma point_keep : forall tr m l m' t c, point tr m t c -> ~ get_event t l ->
  (forall k sd, l = LPub k sd -> published tr k = None) ->
  (critical c = true -> forall k sd, l <> LPub k sd) ->
  (forall p, reading c = Some p -> arrs m' p = arrs m p) ->
  (forall p, private c = Some p -> arrs m' p = arrs m p /\ forall b, here m' b = here m b) ->
  point (l :: tr) m' t c.
Proof.
  intros tr m l m' t c P G PK CL R V. destruct c; cbn [point reading private] in *; auto.
  - now apply in_get_cons.
  - rewrite (R p eq_refl). destruct P as [P1 P2]. split; [now apply saw_cons|]. intros ->. rewrite P2 by reflexivity.
    symmetry. apply published_tau. now apply CL.
  - rewrite (R p eq_refl). destruct P as (sd & r & E & S). exists sd, r. split; [exact E|now apply saw_cons].
  - destruct (V p eq_refl) as [-> H]. now rewrite H.
  - destruct (V p eq_refl) as [-> H]. now rewrite H.
  - destruct r; auto. now apply published_keep.
  - destruct r; auto. now apply published_keep.
Qed.

Lemma saw_published : forall tr s t k sd, inv tr s -> saw t k (Some sd) tr ->
  (forall a b, tr = a ++ b -> published b k = Some sd -> published tr k = Some sd) -> published tr k = Some sd.
Proof. intros tr s t k sd I (a & b & E & _ & _ & P) K. now apply (K a b E). Qed.

(** In an execution, a later publication never replaces an earlier one. *)
Fixpoint once (tr : list label) : Prop :=
  match tr with
  | [] => True
  | LPub k _ :: r => published r k = None /\ once r
  | _ :: r => once r
  end.
Lemma once_suffix : forall a b k sd, once (a ++ b) -> published b k = Some sd -> published (a ++ b) k = Some sd.
Proof.
  induction a as [|l a IH]; intros b k sd H P; [exact P|]. cbn [app] in *. apply published_keep.
  - intros k' sd' ->. apply H.
  - apply IH; [|exact P]. destruct l; cbn in H; try exact H. apply H.
Qed.

Lemma once_app : forall a b, once (a ++ b) -> once b.
Proof. induction a as [|l a IH]; intros b H; [exact H|]. apply IH. destruct l; cbn in H; try exact H. apply H. Qed.

Lemma point_after : forall tr m t w k r, once tr -> saw t k r tr ->
  (match w with WSet _ => published tr k = None | _ => True end) ->
  point (LGet t k r :: tr) m t (after_get w k r).
Proof.
  intros tr m t w k r O S W.
  assert (X : forall sd, r = Some sd -> published (LGet t k r :: tr) k = Some sd).
  { intros sd ->. destruct S as (a & b & -> & _ & _ & E). cbn [published]. now apply once_suffix. }
  destruct w; cbn [after_get].
  - destruct r; cbn [point]; auto.
  - destruct r; cbn [point]; auto.
  - destruct r; cbn [point]; auto.
  - destruct r as [sd'|]; cbn [point]; auto. specialize (X sd' eq_refl). cbn [published] in X. rewrite W in X. discriminate.
Qed.

Lemma setting_setpc : forall w k r k', setting (after_get w k r) = Some k' -> k' = k /\ r = None \/ k' = k /\ (exists sd, w = WSet sd).
Proof.
  intros w k r k' H. destruct w; cbn in H; try discriminate.
  - destruct r; discriminate.
  - destruct r; try discriminate. injection H as <-. auto.
  - destruct r as [x|]; [destruct (Nat.eqb x sd); try discriminate|]; injection H as <-; eauto.
Qed.
Lemma critical_after : forall w k r, critical (after_get w k r) = true -> match w with WSecond | WSet _ => true | _ => false end = true.
Proof. intros w k r H. destruct w; cbn in *; auto. destruct r; auto. Qed.
Lemma no_reading_after : forall w k r, reading (after_get w k r) = None.
Proof. intros. destruct w; cbn; auto; destruct r; auto. destruct (Nat.eqb _ _); auto. Qed.
Lemma no_private_after : forall w k r, private (after_get w k r) = None.
Proof. intros. destruct w; cbn; auto; destruct r; auto. destruct (Nat.eqb _ _); auto. Qed.


(** A step of thread [t] that touches no memory and publishes nothing. *)
Lemma quiet_step : forall tr s l t c, inv tr s -> (forall k sd, l <> LPub k sd) ->
  (forall t', t' <> t -> ~ get_event t' l) ->
  forall lk, (forall t', t' <> t -> critical (st_pc s t') = true -> lk = Some t') ->
  (critical c = true -> lk = Some t) ->
  (forall p, reading c = Some p -> (p < nxt (st_mem s))%nat /\ (forall t', private (st_pc s t') <> Some p)) ->
  (forall p, private c = Some p -> private (st_pc s t) = Some p) ->
  (forall k, setting c = Some k -> published tr k = None) ->
  point (l :: tr) (st_mem s) t c ->
  inv (l :: tr) (set_pc (set_lock s lk) t c).
Proof.
  intros tr s l t c [A B L R V S P] NP OT lk LK CR RD PR SE PT. unfold set_pc, set_lock. cbn [st_mem st_lock st_pc].
  constructor; cbn [st_mem st_lock st_pc].
  - intro k. rewrite published_tau by exact NP. apply A.
  - exact B.
  - intros t' H. destruct (Nat.eqb_spec t' t) as [EQ|NE]; [rewrite EQ; auto|auto].
  - intros t' p H. destruct (Nat.eqb_spec t' t) as [EQ|NE]; [subst t'|]; [now apply RD|eauto].
  - intros t' p H.
    assert (X : exists t0, private (st_pc s t0) = Some p) by (destruct (Nat.eqb_spec t' t) as [EQ|NE]; [subst t'|]; eauto).
    destruct X as (t0 & X). destruct (V t0 p X) as (V1 & V2 & V3). split; [exact V1|]. split; [exact V2|].
    intros t1 H1. destruct (Nat.eqb_spec t1 t) as [EQ|NE]; [subst t1|]; [|now apply (V3 t1)]. apply RD in H1 as [_ H1]. now apply (H1 t0).
  - intros t' k H. rewrite published_tau by exact NP. destruct (Nat.eqb_spec t' t) as [EQ|NE]; [subst t'|]; eauto.
  - intros t'. destruct (Nat.eqb_spec t' t) as [EQ|NE]; [subst t'|]; [exact PT|]. apply (point_keep tr (st_mem s)); auto.
    intros k sd ->. now destruct (NP k sd).
Qed.
Lemma set_lock_same : forall s t c, set_pc s t c = set_pc (set_lock s (st_lock s)) t c.
Proof. intros [m lk p] t c. reflexivity. Qed.

Lemma others_lock : forall tr s t, inv tr s -> forall t', t' <> t -> critical (st_pc s t') = true -> st_lock s = Some t'.
Proof. intros tr s t I t' _ H. now apply (i_lock _ _ I). Qed.

(** The writer changes its own slice. *)
Lemma private_step : forall tr s t k sd p a, inv tr s -> private (st_pc s t) = Some p -> setting (st_pc s t) = Some k ->
  critical (st_pc s t) = true ->
  (lookup k a = Some sd /\ forall k', k' <> k -> lookup k' a = lookup k' (here (st_mem s) (bucket k))) ->
  inv (LTau :: tr) (set_pc (set_mem s (mkMem (bk (st_mem s)) (upd (arrs (st_mem s)) p a) (nxt (st_mem s)))) t (Store k sd p)).
Proof.
  intros tr [m lk pcs] t k sd p a [A B L R V S P] PV SE CR PT. cbn [st_mem st_lock st_pc] in *.
  destruct (V t p PV) as (V1 & V2 & V3). unfold set_pc, set_mem. cbn [st_mem st_lock st_pc].
  assert (HERE : forall b, here (mkMem (bk m) (upd (arrs m) p a) (nxt m)) b = here m b).
  { intro b. unfold here. cbn. destruct (bk m b) as [q|] eqn:BQ; [|reflexivity]. unfold upd.
    destruct (Nat.eqb_spec q p) as [->|]; [now destruct (V2 b)|reflexivity]. }
  assert (ALONE : forall t', t' <> t -> critical (pcs t') = false).
  { intros t' NE. destruct (critical (pcs t')) eqn:C; [|reflexivity]. apply L in C. rewrite (L t CR) in C. congruence. }
  constructor; cbn [st_mem st_lock st_pc bk arrs nxt].
  - intro k'. cbn [published]. rewrite <- A. unfold abs. cbn. destruct (bk m (bucket k')) as [q|] eqn:BQ; [|reflexivity].
    unfold upd. destruct (Nat.eqb_spec q p) as [->|]; [now destruct (V2 (bucket k'))|reflexivity].
  - exact B.
  - intros t' H. destruct (Nat.eqb_spec t' t) as [EQ|NE]; [rewrite EQ; auto|auto].
  - intros t' q H. destruct (Nat.eqb_spec t' t) as [EQ|NE]; [subst t'|]; [discriminate|eauto].
  - intros t' q H. destruct (Nat.eqb_spec t' t) as [EQ|NE]; [subst t'|].
    + injection H as <-. split; [exact V1|]. split; [exact V2|]. intros t' H. destruct (Nat.eqb_spec t' t) as [EQ|NE]; [subst t'|]; [discriminate|]. now apply (V3 t').
    + apply ALONE in NE. destruct (pcs t'); try discriminate H; discriminate NE.
  - intros t' k' H. cbn [published]. destruct (Nat.eqb_spec t' t) as [EQ|NE]; [subst t'|]; [|now apply (S t')]. injection H as <-. now apply (S t).
  - intro t'. destruct (Nat.eqb_spec t' t) as [EQ|NE]; [subst t'|].
    + cbn [point arrs]. rewrite HERE. unfold upd. rewrite Nat.eqb_refl. exact PT.
    + apply (point_keep tr m); auto; try discriminate.
      * intros q H. cbn. unfold upd. destruct (Nat.eqb_spec q p) as [->|]; [now destruct (V3 t')|reflexivity].
      * intros q H. apply ALONE in NE. destruct (pcs t'); try discriminate H; discriminate NE.
Qed.

Lemma step_inv : forall tr s l s', once tr -> inv tr s -> step s l s' -> inv (l :: tr) s' /\ once (l :: tr).
Proof.
  intros tr s l s' O I ST.
  assert (GETEND : forall t w k r c0, st_pc s t = c0 -> critical c0 = (match w with WSecond | WSet _ => true | _ => false end) ->
     (forall sd, w = WSet sd -> setting c0 = Some k) -> (r = None -> saw t k None tr) -> saw t k r tr ->
     (w = WSecond -> r = None -> published tr k = None) ->
     inv (LGet t k r :: tr) (set_pc s t (after_get w k r)) /\ once (LGet t k r :: tr)).
  { intros t w k r c0 PC CR SE SN SW W2. split; [|exact O]. rewrite set_lock_same.
    apply (quiet_step tr s); [exact I|discriminate|intros t' NE H; cbn in H; congruence|eapply others_lock, I|..].
    - intro H. apply (i_lock _ _ I). rewrite PC, CR. eapply critical_after, H.
    - intros p H. rewrite no_reading_after in H. discriminate.
    - intros p H. rewrite no_private_after in H. discriminate.
    - intros k' H. destruct (setting_setpc _ _ _ _ H) as [[-> ->]|[-> (sd & ->)]].
      + destruct w; cbn in H; try discriminate; [now apply W2|]. apply (i_set _ _ I t). rewrite PC. eapply SE. reflexivity.
      + apply (i_set _ _ I t). rewrite PC. eapply SE. reflexivity.
    - apply point_after; auto. destruct w; auto. apply (i_set _ _ I t). rewrite PC. eapply SE. reflexivity. }
  assert (BEG : forall t k w lk, reading (Load w k) = None -> (forall t', t' <> t -> critical (st_pc s t') = true -> lk = Some t') ->
     (critical (Load w k) = true -> lk = Some t) -> (forall sd, w = WSet sd -> published tr k = None) ->
     inv (LBeg t k :: tr) (set_pc (set_lock s lk) t (Load w k)) /\ once (LBeg t k :: tr)).
  { intros t k w lk _ OL CR WS. split; [|exact O]. apply (quiet_step tr s); [exact I|discriminate|intros t' NE H; cbn in H; congruence|exact OL|exact CR|discriminate|discriminate|..].
    - intros k' H. destruct w; try discriminate. injection H as <-. eapply WS. reflexivity.
    - apply in_get_beg. }
  assert (TAU : forall t c, (critical c = true -> critical (st_pc s t) = true) ->
     (forall p, reading c = Some p -> (p < nxt (st_mem s))%nat /\ (forall t', private (st_pc s t') <> Some p)) ->
     (forall p, private c = Some p -> private (st_pc s t) = Some p) ->
     (forall k, setting c = Some k -> setting (st_pc s t) = Some k) ->
     point (LTau :: tr) (st_mem s) t c ->
     inv (LTau :: tr) (set_pc s t c) /\ once (LTau :: tr)).
  { intros t c CR RD PR SE PT. split; [|exact O]. rewrite set_lock_same. apply (quiet_step tr s); [exact I|discriminate|intros ? ? []|eapply others_lock, I| |exact RD|exact PR| |exact PT].
    - intro H. apply (i_lock _ _ I). auto.
    - intros k H. apply (i_set _ _ I t). auto. }
  assert (NOPRIV : forall t p, reading (st_pc s t) = Some p -> forall t', private (st_pc s t') <> Some p).
  { intros t p H t' H'. destruct (i_priv _ _ I t' p H') as (_ & _ & X). now apply (X t). }
  destruct ST as [t k w PC W|t w k PC B|t w k p PC B|t w k p i PC NE|t w k p i x PC NE NK|t w k p i x PC NE NK|t w k p i x PC NE
    |t k PC|t k PC LK|t k PC|t k sd PC|t k sd PC m old|t k sd p i x PC NE NK|t k sd p i x PC NE NK m|t k sd p i PC NE m|t k sd p PC m
    |t k r PC|t k r PC]; pose proof (i_point _ _ I t) as PT; rewrite PC in PT; cbn [point] in PT.
  - (* call *) rewrite set_lock_same. apply BEG; auto; try (eapply others_lock, I); destruct W as [-> | ->]; discriminate.
  - (* load nil *)
    assert (E : published tr k = None).
    { rewrite <- (i_abs _ _ I). unfold abs. now rewrite B. }
    eapply GETEND; [exact PC|destruct w; reflexivity|intros sd ->; reflexivity| | |auto]; [intros _|]; apply saw_now; auto.
  - (* load *)
    assert (E : lookup k (arrs (st_mem s) p) = published tr k).
    { rewrite <- (i_abs _ _ I). unfold abs. now rewrite B. }
    apply TAU; try discriminate.
    + rewrite PC. destruct w; auto.
    + intros q H. injection H as <-. split; [eapply (i_bk _ _ I), B|]. intros t' H. destruct (i_priv _ _ I t' p H) as (_ & X & _). now apply (X (bucket k)).
    + rewrite PC. destruct w; auto.
    + cbn [point skipn]. split; [apply saw_cons; [intros []|]; now apply saw_now|]. intros _. exact E.
  - (* scan end *)
    rewrite (nth_skipn_none _ _ _ NE) in PT. cbn [lookup] in PT. destruct PT as [P1 P2].
    eapply GETEND; [exact PC|destruct w; reflexivity|intros sd ->; reflexivity|auto|auto|]. intros -> _. symmetry. now apply P2.
  - (* scan next *)
    rewrite (nth_skipn _ _ _ _ NE) in PT. destruct x as [k' sd']. cbn [fst] in NK. cbn [lookup] in PT.
    replace (k' =? k) with false in PT by (symmetry; now apply N.eqb_neq). destruct PT as [P1 P2].
    apply TAU; try discriminate.
    + rewrite PC. destruct w; auto.
    + intros q H. injection H as <-. split; [apply (i_read _ _ I t); now rewrite PC|]. apply (NOPRIV t). now rewrite PC.
    + rewrite PC. destruct w; auto.
    + cbn [point]. split; [apply saw_cons; [intros []|exact P1]|exact P2].
  - (* scan hit *)
    rewrite (nth_skipn _ _ _ _ NE) in PT. destruct x as [k' sd']. cbn [fst] in NK. subst k'. cbn [lookup] in PT.
    rewrite N.eqb_refl in PT. destruct PT as [P1 P2].
    apply TAU; try discriminate.
    + rewrite PC. destruct w; auto.
    + intros q H. injection H as <-. split; [apply (i_read _ _ I t); now rewrite PC|]. apply (NOPRIV t). now rewrite PC.
    + rewrite PC. destruct w; auto.
    + cbn [point]. exists sd', (skipn (S i) (arrs (st_mem s) p)). split; [now apply nth_skipn|]. apply saw_cons; [intros []|exact P1].
  - (* hit *)
    destruct PT as (sd & r & E & SW). rewrite (nth_skipn _ _ _ _ NE) in E. injection E as E _. rewrite E. cbn [snd].
    eapply GETEND; [exact PC|destruct w; reflexivity|intros sd' ->; reflexivity|discriminate|exact SW|discriminate].
  - (* not struct *) apply TAU; try discriminate. exact Logic.I.
  - (* lock *) apply BEG; auto; try discriminate. intros t' NE H. apply (i_lock _ _ I) in H. congruence.
  - (* parse error *) apply TAU; try discriminate. rewrite PC. reflexivity. exact Logic.I.
  - (* parse *) rewrite set_lock_same. apply BEG; auto; try discriminate.
    + eapply others_lock, I.
    + intros _. apply (i_lock _ _ I). now rewrite PC.
    + intros _ _. apply (i_set _ _ I t). now rewrite PC.
  - (* copy *)
    split; [|exact O]. destruct I as [A B L R V S P]. unfold set_pc, set_mem. fold m in A, B, L, R, V, S, P.
    assert (KEEP : forall p, (p < nxt m)%nat -> upd (arrs m) (nxt m) old p = arrs m p).
    { intros p H. unfold upd. destruct (Nat.eqb_spec p (nxt m)); [lia|reflexivity]. }
    assert (HERE : forall b, here (mkMem (bk m) (upd (arrs m) (nxt m) old) (Datatypes.S (nxt m))) b = here m b).
    { intro b. unfold here. cbn. destruct (bk m b) as [p|] eqn:BP; [|reflexivity]. apply KEEP. eapply B, BP. }
    constructor; cbn [st_mem st_lock st_pc bk arrs nxt].
    + intro k'. cbn [published]. rewrite <- A. unfold abs. cbn. destruct (bk m (bucket k')) as [p|] eqn:BP; [|reflexivity]. rewrite KEEP; [reflexivity|]. eapply B, BP.
    + intros b p H. apply B in H. lia.
    + intros t' H. destruct (Nat.eqb_spec t' t) as [EQ|NE]; [subst t'|]; [|now apply L]. apply L. now rewrite PC.
    + intros t' p H. destruct (Nat.eqb_spec t' t) as [EQ|NE]; [subst t'|]; [discriminate|]. apply R in H. lia.
    + intros t' p H. destruct (Nat.eqb_spec t' t) as [EQ|NE]; [subst t'|].
      * injection H as <-. split; [lia|]. split; [intros b H; apply B in H; lia|].
        intros t' H. destruct (Nat.eqb_spec t' t) as [EQ|NE]; [subst t'|]; [discriminate|]. apply R in H. lia.
      * assert (C : critical (st_pc s t') = true) by (destruct (st_pc s t'); try discriminate H; reflexivity).
        apply L in C. rewrite (L t) in C by now rewrite PC. congruence.
    + intros t' k' H. cbn [published]. destruct (Nat.eqb_spec t' t) as [EQ|NE]; [subst t'|]; [|now apply (S t')]. injection H as <-. apply (S t). now rewrite PC.
    + intro t'. destruct (Nat.eqb_spec t' t) as [EQ|NE]; [subst t'|].
      * cbn [point arrs]. rewrite HERE. unfold upd. rewrite Nat.eqb_refl. split; [lia|]. split; [|reflexivity]. subst old. reflexivity.
      * apply (point_keep tr m); auto; try discriminate.
        -- intros p H. apply KEEP. now apply (R t').
        -- intros p H. split; [|exact HERE]. apply KEEP. now apply (V t').
  - (* find next *)
    destruct PT as (P0 & P1 & P2). apply TAU; try discriminate; rewrite ?PC; auto.
    cbn [point]. split; [apply nth_error_Some; rewrite NE; discriminate|]. split; [exact P1|].
    rewrite (nth_firstn _ _ _ _ NE), lookup_app, P2. destruct x as [k' sd']. cbn [lookup]. cbn [fst] in NK.
    replace (k' =? k) with false by (symmetry; now apply N.eqb_neq). reflexivity.
  - (* find hit *)
    destruct PT as (P0 & P1 & P2). split; [|exact O]. apply (private_step tr s); auto; try (rewrite PC; reflexivity).
    destruct x as [k' sd']. cbn [fst] in NK. subst k'. rewrite <- P1. now apply (set_sd_lookup _ _ _ sd').
  - (* find end *)
    subst m. destruct PT as (P0 & P1 & P2). split; [|exact O]. apply (private_step tr s); auto; try (rewrite PC; reflexivity).
    apply nth_error_None in NE. rewrite firstn_all2 in P2 by exact NE. rewrite lookup_app, P2. cbn [lookup]. rewrite N.eqb_refl.
    split; [reflexivity|]. intros k' NK. rewrite lookup_app. cbn [lookup]. rewrite <- P1.
    replace (k =? k') with false by (symmetry; apply N.eqb_neq; congruence). now destruct (lookup k' (arrs (st_mem s) p)).
  - (* store *)
    destruct PT as (P1 & P2).
    assert (PN : published tr k = None) by (apply (i_set _ _ I t); now rewrite PC).
    split; [|cbn [once]; auto]. destruct I as [A B L R V S P].
    assert (CR : critical (st_pc s t) = true) by now rewrite PC.
    assert (ALONE : forall t', t' <> t -> critical (st_pc s t') = false).
    { intros t' NE. destruct (critical (st_pc s t')) eqn:C; [|reflexivity]. apply L in C. rewrite (L t CR) in C. congruence. }
    destruct (V t p ltac:(now rewrite PC)) as (V1 & V2 & V3). subst m.
    unfold set_pc, set_mem. constructor; cbn [st_mem st_lock st_pc bk arrs nxt].
    + intro k'. cbn [published]. unfold abs. cbn [bk arrs]. destruct (N.eqb_spec k k') as [<-|NK].
      * rewrite N.eqb_refl. exact P1.
      * rewrite <- A. unfold abs. destruct (N.eqb_spec (bucket k') (bucket k)) as [EB|NB]; [|reflexivity].
        rewrite P2 by congruence. rewrite EB. unfold here. now destruct (bk (st_mem s) (bucket k)).
    + intros b q H. destruct (b =? bucket k); [injection H as <-; exact V1|]. now apply (B b).
    + intros t' H. destruct (Nat.eqb_spec t' t) as [EQ|NE]; [rewrite EQ; auto|auto].
    + intros t' q H. destruct (Nat.eqb_spec t' t) as [EQ|NE]; [subst t'|]; [discriminate|eauto].
    + intros t' q H. destruct (Nat.eqb_spec t' t) as [EQ|NE]; [subst t'|]; [discriminate|].
      apply ALONE in NE. destruct (st_pc s t'); try discriminate H; discriminate NE.
    + intros t' k' H. destruct (Nat.eqb_spec t' t) as [EQ|NE]; [subst t'|]; [discriminate|].
      apply ALONE in NE. destruct (st_pc s t') as [|[]|[]|[]| | | | | | |]; try discriminate H; discriminate NE.
    + intro t'. destruct (Nat.eqb_spec t' t) as [EQ|NE]; [subst t'|].
      * cbn [point published]. now rewrite N.eqb_refl.
      * apply ALONE in NE. apply (point_keep tr (st_mem s)); auto.
        -- intros k' sd' H. injection H as <- <-. exact PN.
        -- rewrite NE. discriminate.
        -- intros q H. destruct (st_pc s t'); try discriminate H; discriminate NE.
  - (* unlock *)
    split; [|exact O]. apply (quiet_step tr s); [exact I|discriminate|intros ? ? []| |discriminate|discriminate|discriminate|discriminate|].
    + intros t' NE H. exfalso. apply (i_lock _ _ I) in H. rewrite (i_lock _ _ I t) in H by now rewrite PC. congruence.
    + destruct r; exact PT.
  - (* ret *)
    split; [|exact O]. rewrite set_lock_same. apply (quiet_step tr s); [exact I|discriminate|intros ? ? []| |discriminate|discriminate|discriminate|discriminate|].
    + eapply others_lock, I.
    + exact Logic.I.
Qed.

Lemma init_inv : inv [] init.
Proof. constructor; cbn; try discriminate; auto. Qed.

Lemma run_inv : forall tr s, run tr s -> inv tr s /\ once tr.
Proof.
  induction 1 as [|tr s l s' R [I O] ST]; [split; [exact init_inv|exact Logic.I]|]. now apply (step_inv tr s).
Qed.

(** ** Consequences *)

Lemma get_saw : forall tr s t k r, run (LGet t k r :: tr) s -> saw t k r tr.
Proof.
  intros tr s t k r H. inversion H as [|? s0 ? ? R ST]; subst. destruct (run_inv _ _ R) as [I O].
  pose proof (i_point _ _ I t) as PT.
  inversion ST; subst; match goal with PC : st_pc s0 t = _ |- _ => rewrite PC in PT end; cbn [point] in PT.
  - apply saw_now; [exact PT|]. rewrite <- (i_abs _ _ I). unfold abs. match goal with B : bk _ _ = None |- _ => now rewrite B end.
  - match goal with B : nth_error _ _ = None |- _ => rewrite (nth_skipn_none _ _ _ B) in PT end. apply PT.
  - destruct PT as (sd & q & E & SW). match goal with B : nth_error _ _ = Some _ |- _ => rewrite (nth_skipn _ _ _ _ B) in E end. injection E as -> _. exact SW.
Qed.

Lemma ret_published : forall tr s t k sd, run (LRet t k (Some sd) :: tr) s -> published tr k = Some sd.
Proof.
  intros tr s t k sd H. inversion H as [|? s0 ? ? R ST]; subst. destruct (run_inv _ _ R) as [I O].
  pose proof (i_point _ _ I t) as PT. inversion ST; subst. match goal with PC : st_pc s0 t = _ |- _ => rewrite PC in PT end. exact PT.
Qed.

Lemma run_prefix : forall a b s, run (a ++ b) s -> exists s', run b s'.
Proof. induction a as [|l a IH]; intros b s H; [eauto|]. inversion H; subst. eauto. Qed.

Lemma pub_once : forall a b s k sd sd', run (a ++ LPub k sd :: b) s -> ~ In (LPub k sd') b.
Proof.
  intros a b s k sd sd' R H. apply run_prefix in R as (s' & R). apply run_inv in R as [_ [PN O]].
  clear s' s. revert PN. induction b as [|l b IH]; [destruct H|]. intro PN. destruct H as [->|H].
  - cbn in PN. rewrite N.eqb_refl in PN. discriminate.
  - destruct l; cbn in PN, O; auto. destruct (k0 =? k) eqn:E; [discriminate|]. apply IH; auto. apply O.
Qed.

Lemma ret_same : forall tr s t1 t2 k sd1 sd2, run tr s -> In (LRet t1 k (Some sd1)) tr -> In (LRet t2 k (Some sd2)) tr -> sd1 = sd2.
Proof.
  intros tr s t1 t2 k sd1 sd2 R.
  assert (X : forall t sd, In (LRet t k (Some sd)) tr -> published tr k = Some sd).
  { intros t sd H. apply in_split in H as (a & b & ->). destruct (run_inv _ _ R) as [_ O].
    change (a ++ LRet t k (Some sd) :: b) with (a ++ [LRet t k (Some sd)] ++ b) in *. rewrite app_assoc in *.
    apply once_suffix; [exact O|]. rewrite <- app_assoc in R. apply run_prefix in R as (s' & R). eapply ret_published. exact R. }
  intros H1 H2. apply X in H1, H2. congruence.
Qed.

Lemma mutex : forall tr s t1 t2, run tr s -> critical (st_pc s t1) = true -> critical (st_pc s t2) = true -> t1 = t2.
Proof. intros tr s t1 t2 R H1 H2. destruct (run_inv _ _ R) as [I _]. apply (i_lock _ _ I) in H1, H2. congruence. Qed.
