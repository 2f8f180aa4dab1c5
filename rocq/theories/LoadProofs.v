(** Proofs about the loading and ordering of files. *)
From Coq Require Import ZArith Lia Permutation.
From Verif Require Import Base Load LoadSpec.
Open Scope nat_scope.

Section Load.
Variable imports : nat -> list nat.
Notation reaches := (reaches imports).
Definition plus (x y : nat) : Prop := exists z, In z (imports x) /\ reaches z y.

Lemma reaches_trans : forall x y z, reaches x y -> reaches y z -> reaches x z.
Proof. induction 1 as [x|x y' y I R IH]; intros H; [exact H|]. eapply reaches_via; [exact I|now apply IH]. Qed.
Lemma reaches_step : forall x y z, reaches x y -> In z (imports y) -> reaches x z.
Proof. intros x y z R I. apply (reaches_trans x y z R). eapply reaches_via; [exact I|apply reaches_self]. Qed.

Lemma getByFile_iff : forall l f, getByFile l f = true <-> In f l.
Proof.
  intros l f. unfold getByFile. rewrite existsb_exists. split.
  - intros (x & I & E). apply Nat.eqb_eq in E. now subst.
  - intros I. exists f. split; [exact I|apply Nat.eqb_refl].
Qed.

Fixpoint walk (ld : list nat -> nat -> loaded) (ps l : list nat) : loaded :=
  match l with
  | [] => LOk ps
  | i :: r => match ld ps i with LOk ps' => walk ld ps' r | e => e end
  end.
Lemma loadProto_eq : forall k stack ps f, loadProto imports (S k) stack ps f =
  if getByFile stack f then LCyclic stack
  else if getByFile ps f then LOk ps
  else walk (loadProto imports k (stack ++ [f])) (ps ++ [f]) (imports f).
Proof.
  intros k stack ps f. cbn [loadProto]. destruct (getByFile stack f); [reflexivity|]. destruct (getByFile ps f); [reflexivity|].
  generalize (ps ++ [f]), (imports f). intros q l. revert q. induction l as [|i l IH]; intros q; [reflexivity|].
  cbn [walk]. destruct (loadProto imports k (stack ++ [f]) q i); [apply IH|reflexivity|reflexivity].
Qed.

(** Files in an order in which imports come first *)
Inductive topo : list nat -> Prop :=
| topo_nil : topo []
| topo_snoc l x : topo l -> incl (imports x) l -> ~ In x l -> topo (l ++ [x]).
Lemma topo_closed : forall l, topo l -> forall x y, In x l -> In y (imports x) -> In y l.
Proof.
  induction 1 as [|l z T IH IN NI]; intros x y I J; [destruct I|]. apply in_or_app. left.
  apply in_app_or in I as [I|[->|[]]]; [now apply (IH x)|now apply IN].
Qed.
Lemma topo_reaches : forall l, topo l -> forall x y, reaches x y -> In x l -> In y l.
Proof. intros l T x y R. induction R as [x|x y z I R IH]; intros J; [exact J|]. apply IH. now apply (topo_closed l T x). Qed.
Lemma topo_acyclic : forall l, topo l -> forall x, In x l -> ~ plus x x.
Proof.
  induction 1 as [|l z T IH IN NI]; intros x I; [destruct I|].
  apply in_app_or in I as [I|[->|[]]]; [now apply IH|].
  intros (y & J & R). apply NI. apply (topo_reaches l T y); [exact R|now apply IN].
Qed.

Record pre (stack ps fin : list nat) : Prop := mkPre {
  pre_nodup : NoDup ps;
  pre_topo : topo fin;
  pre_in : forall x, In x ps <-> In x stack \/ In x fin;
  pre_disj : forall x, In x stack -> ~ In x fin }.

Lemma nodup_snoc : forall (l : list nat) x, NoDup l -> ~ In x l -> NoDup (l ++ [x]).
Proof.
  intros l x ND NI. apply (Permutation_NoDup (Permutation_cons_append l x)). now constructor.
Qed.

Lemma nodup_app_r : forall (a b : list nat), NoDup (a ++ b) -> NoDup b.
Proof. induction a as [|x a IH]; intros b H; [exact H|]. apply IH. now inversion H. Qed.

(** What a load leaves behind *)
Definition post (stack ps fin : list nat) (R : nat -> Prop) (ps' : list nat) (G : list nat -> Prop) : Prop :=
  exists l g, ps' = ps ++ l /\ pre stack ps' (fin ++ g) /\ (forall x, In x l -> R x) /\ G (fin ++ g).

Lemma load_ok : forall k stack ps fin f ps', pre stack ps fin -> loadProto imports k stack ps f = LOk ps' ->
  post stack ps fin (reaches f) ps' (fun g => In f g) /\ (In f ps \/ exists l, ps' = ps ++ f :: l).
Proof.
  induction k as [|k IH]; [discriminate|]. intros stack ps fin f ps' P H. rewrite loadProto_eq in H.
  destruct (getByFile stack f) eqn:GS; [discriminate|].
  assert (NS : ~ In f stack) by (rewrite <- getByFile_iff; congruence). clear GS.
  destruct (getByFile ps f) eqn:GP.
  { injection H as <-. apply getByFile_iff in GP. split; [|now left]. exists [], []. rewrite !app_nil_r.
    split; [reflexivity|]. split; [exact P|]. split; [intros x []|]. apply (pre_in _ _ _ P) in GP. tauto. }
  assert (NP : ~ In f ps) by (rewrite <- getByFile_iff; congruence). clear GP.
  assert (NF : ~ In f fin) by (intros I; apply NP, (pre_in _ _ _ P); now right).
  (* the imports *)
  assert (W : forall js q fin0 q', (forall j, In j js -> In j (imports f)) -> pre (stack ++ [f]) q fin0 -> walk (loadProto imports k (stack ++ [f])) q js = LOk q' ->
     post (stack ++ [f]) q fin0 (reaches f) q' (fun g => incl js g)).
  { induction js as [|j js IHj]; intros q fin0 q' SUB PQ HW; cbn [walk] in HW.
    - injection HW as <-. exists [], []. rewrite !app_nil_r. split; [reflexivity|]. split; [exact PQ|]. split; [intros x []|intros x []].
    - destruct (loadProto imports k (stack ++ [f]) q j) as [q1| |] eqn:E; try discriminate.
      destruct (IH _ _ _ _ _ PQ E) as ((l1 & g1 & -> & P1 & R1 & J1) & _).
      destruct (IHj _ _ _ (fun x I => SUB x (or_intror I)) P1 HW) as (l2 & g2 & -> & P2 & R2 & J2).
      exists (l1 ++ l2), (g1 ++ g2). rewrite !app_assoc. split; [reflexivity|]. split; [exact P2|]. split.
      + intros x I. apply in_app_or in I as [I|I]; [|now apply R2].
        eapply reaches_via; [apply SUB; now left|now apply R1].
      + intros x [<-|I]; [apply in_or_app; now left|now apply J2]. }
  assert (PQ : pre (stack ++ [f]) (ps ++ [f]) fin).
  { constructor.
    - apply nodup_snoc; [apply P|exact NP].
    - apply P.
    - intros x. rewrite !in_app_iff, (pre_in _ _ _ P x). cbn. tauto.
    - intros x I. apply in_app_or in I as [I|[<-|[]]]; [now apply (pre_disj _ _ _ P)|exact NF]. }
  destruct (W _ _ _ _ (fun x I => I) PQ H) as (l & g & -> & P' & R' & IN).
  assert (NFG : ~ In f (fin ++ g)) by (apply (pre_disj _ _ _ P'); apply in_or_app; right; now left).
  split; [|right; exists l; now rewrite <- app_assoc].
  exists (f :: l), (g ++ [f]). split; [now rewrite <- app_assoc|].
  replace (fin ++ g ++ [f]) with ((fin ++ g) ++ [f]) by (now rewrite app_assoc). split; [|split].
  - destruct P' as [A B C D]. constructor.
    + exact A.
    + apply topo_snoc; [exact B|exact IN|exact NFG].
    + intros x. rewrite (C x), !in_app_iff. cbn [In]. clear. tauto.
    + intros x I J. apply in_app_or in J as [J|[<-|[]]]; [|now apply NS].
      apply (D x); [apply in_or_app; now left|exact J].
  - intros x [<-|I]; [apply reaches_self|now apply R'].
  - apply in_or_app. right. now left.
Qed.

Lemma load_cyclic : forall k stack ps f st, (forall x, In x stack -> plus x f) -> loadProto imports k stack ps f = LCyclic st ->
  exists x, reaches f x /\ plus x x.
Proof.
  induction k as [|k IH]; [discriminate|]. intros stack ps f st PA H. rewrite loadProto_eq in H.
  destruct (getByFile stack f) eqn:GS.
  { apply getByFile_iff in GS. exists f. split; [apply reaches_self|now apply PA]. }
  destruct (getByFile ps f); [discriminate|]. clear GS.
  assert (W : forall js q, (forall j, In j js -> In j (imports f)) -> walk (loadProto imports k (stack ++ [f])) q js = LCyclic st -> exists x, reaches f x /\ plus x x).
  { induction js as [|j js IHj]; intros q SUB HW; cbn [walk] in HW; [discriminate|].
    assert (J : In j (imports f)) by (apply SUB; now left).
    destruct (loadProto imports k (stack ++ [f]) q j) as [q1|st'|] eqn:E; [|injection HW as ->|discriminate].
    - apply (IHj q1); [|exact HW]. intros x I. apply SUB. now right.
    - destruct (IH (stack ++ [f]) q j st) as (x & R & C); [|exact E|].
      { intros x I. apply in_app_or in I as [I|[<-|[]]].
        - destruct (PA x I) as (z & Z1 & Z2). exists z. split; [exact Z1|]. now apply (reaches_step z f).
        - exists j. split; [exact J|apply reaches_self]. }
      exists x. split; [|exact C]. eapply reaches_via; eassumption. }
  exact (W _ _ (fun x I => I) H).
Qed.

Lemma nodup_le : forall (l U : list nat), NoDup l -> incl l U -> length l <= length U.
Proof. intros l U ND IN. now apply NoDup_incl_length. Qed.

Lemma load_fuel : forall U, (forall x y, In x U -> In y (imports x) -> In y U) ->
  forall k stack ps f, In f U -> NoDup stack -> incl stack U -> length U < length stack + k -> loadProto imports k stack ps f <> LFuel.
Proof.
  intros U CL. induction k as [|k IH]; intros stack ps f IU ND IN L.
  { apply nodup_le with (U := U) in ND; [lia|exact IN]. }
  rewrite loadProto_eq. destruct (getByFile stack f) eqn:GS; [discriminate|].
  assert (NS : ~ In f stack) by (rewrite <- getByFile_iff; congruence). clear GS.
  destruct (getByFile ps f); [discriminate|].
  assert (SUB : forall j, In j (imports f) -> In j U) by (intros j J; now apply (CL f)).
  revert SUB. generalize (ps ++ [f]). induction (imports f) as [|j js IHj]; intros q SUB; cbn [walk]; [discriminate|].
  destruct (loadProto imports k (stack ++ [f]) q j) eqn:E; [|discriminate|].
  - apply IHj. intros x I. apply SUB. now right.
  - exfalso. revert E. apply IH.
    + apply SUB. now left.
    + now apply nodup_snoc.
    + intros x I. apply in_app_or in I as [I|[<-|[]]]; [now apply IN|exact IU].
    + rewrite app_length. cbn. lia.
Qed.

(** * Kahn's algorithm *)
(** How often the files of a list import one *)
Definition count (l : list nat) (x : nat) : nat := count_occ Nat.eq_dec l x.
Fixpoint edges (pp : list nat) (x : nat) : nat :=
  match pp with [] => 0 | p :: r => count (imports p) x + edges r x end.

Lemma edges_app : forall a b x, edges (a ++ b) x = edges a x + edges b x.
Proof. induction a as [|p a IH]; intros b x; cbn; [reflexivity|]. rewrite IH. lia. Qed.
Lemma edges_perm : forall a b x, Permutation a b -> edges a x = edges b x.
Proof. induction 1; cbn; lia. Qed.
Lemma edges_zero : forall pp x, edges pp x = 0 <-> forall p, In p pp -> ~ In x (imports p).
Proof.
  induction pp as [|p pp IH]; intros x; cbn; [split; [intros _ ? []|reflexivity]|]. split.
  - intros H q [->|I].
    + apply count_occ_not_In with (eq_dec := Nat.eq_dec). unfold count in H. lia.
    + apply IH; [lia|exact I].
  - intros H. assert (A : count (imports p) x = 0) by (apply count_occ_not_In; apply H; now left).
    assert (B : edges pp x = 0) by (apply IH; intros q I; apply H; now right). lia.
Qed.

Lemma inDegree_edges : forall pp x, inDegree imports pp x = Z.of_nat (edges pp x).
Proof.
  intros pp x. unfold inDegree.
  assert (A : forall l d, fold_left (fun d i => add_to d i 1) l d x = (d x + Z.of_nat (count l x))%Z).
  { induction l as [|i l IH]; intros d; cbn [fold_left]; [cbn; lia|]. rewrite IH. unfold add_to, count. cbn [count_occ].
    destruct (Nat.eqb_spec x i) as [E|N], (Nat.eq_dec i x) as [E'|E']; try (now destruct E'); try (now destruct N); lia. }
  assert (B : forall l d, fold_left (fun d p => fold_left (fun d i => add_to d i 1) (imports p) d) l d x = (d x + Z.of_nat (edges l x))%Z).
  { induction l as [|p l IH]; intros d; cbn [fold_left edges]; [lia|]. rewrite IH, A. lia. }
  rewrite B. reflexivity.
Qed.

(** The loop over the imports of a file: files whose last reference is removed are queued *)
Lemma release_spec : forall ds d q, (forall x, (Z.of_nat (count ds x) <= d x)%Z) ->
  let '(d', q') := release ds d q in
  (forall x, d' x = (d x - Z.of_nat (count ds x))%Z) /\
  exists n, q' = q ++ n /\ NoDup n /\ forall x, In x n <-> In x ds /\ d' x = 0%Z.
Proof.
  unfold release. induction ds as [|i ds IH]; intros d q L.
  { cbn. split; [intros x; lia|]. exists []. rewrite app_nil_r. split; [reflexivity|]. split; [constructor|]. intros x. cbn. tauto. }
  cbn [fold_left fst snd].
  set (d1 := add_to d i (-1)).
  assert (D1 : forall x, d1 x = if Nat.eqb x i then (d x - 1)%Z else d x) by (intros x; unfold d1, add_to; destruct (Nat.eqb x i); lia).
  assert (C1 : forall x, count (i :: ds) x = (if Nat.eqb x i then 1 else 0) + count ds x).
  { intros x. unfold count. cbn [count_occ]. destruct (Nat.eq_dec i x) as [E|E], (Nat.eqb_spec x i); try congruence; lia. }
  assert (L1 : forall x, (Z.of_nat (count ds x) <= d1 x)%Z).
  { intros x. specialize (L x). rewrite C1 in L. rewrite D1. destruct (Nat.eqb x i); lia. }
  specialize (IH d1 (if Z.eqb (d1 i) 0 then q ++ [i] else q) L1).
  destruct (fold_left _ ds (d1, _)) as [d' q'] eqn:E. destruct IH as (A & n & -> & ND & B).
  split.
  { intros x. rewrite A, D1, C1. destruct (Nat.eqb x i); lia. }
  destruct (Z.eqb_spec (d1 i) 0) as [Z0|NZ].
  - exists (i :: n). rewrite <- app_assoc. split; [reflexivity|].
    assert (CI : count ds i = 0) by (specialize (L1 i); lia).
    assert (NI : ~ In i ds) by (apply count_occ_not_In with (eq_dec := Nat.eq_dec); exact CI).
    split; [constructor; [intros I; apply B in I; tauto|exact ND]|].
    intros x. cbn [In]. rewrite B. split; [|tauto]. intros [<-|H]; [|tauto]. split; [now left|]. rewrite A, CI. lia.
  - exists n. split; [reflexivity|]. split; [exact ND|]. intros x. rewrite B. cbn [In]. split; [tauto|].
    intros ([<-|I] & Z0); [|tauto]. split; [|exact Z0].
    rewrite A in Z0. destruct (in_dec Nat.eq_dec i ds) as [J|J]; [exact J|].
    apply (count_occ_not_In Nat.eq_dec) in J. unfold count in Z0. lia.
Qed.

Lemma filter_split : forall (f : nat -> bool) l, Permutation l (filter f l ++ filter (fun x => negb (f x)) l).
Proof.
  intros f l. induction l as [|x l IH]; cbn; [constructor|]. destruct (f x); cbn; [now apply perm_skip|].
  rewrite IH at 1. apply Permutation_middle.
Qed.

Section Kahn.
Variable pp : list nat.
Hypothesis ND : NoDup pp.
Hypothesis CL : forall x y, In x pp -> In y (imports x) -> In y pp.

(** After some rounds: [ret] sorted, the rest [rem] *)
Record inv (d : degrees) (queue ret : list nat) : Prop := mkInv {
  inv_perm : exists rem, Permutation pp (ret ++ queue ++ rem) /\ forall x, In x rem -> d x <> 0%Z;
  inv_deg : forall x, d x = (Z.of_nat (edges pp x) - Z.of_nat (edges ret x))%Z;
  inv_queue : forall x, In x queue -> d x = 0%Z;
  inv_order : forall a x b, ret = a ++ x :: b -> forall p, In p pp -> In x (imports p) -> In p a }.

Lemma edges_sub : forall ret rest x, Permutation pp (ret ++ rest) -> edges ret x <= edges pp x.
Proof. intros ret rest x P. rewrite (edges_perm _ _ x P), edges_app. lia. Qed.

Lemma inv_step : forall d p queue ret, inv d (p :: queue) ret ->
  let '(d', q') := release (imports p) d queue in inv d' q' (ret ++ [p]).
Proof.
  intros d p queue ret [(rem & P & NZ) DEG QU ORD].
  assert (IP : In p pp) by (apply (Permutation_in p (Permutation_sym P)); apply in_or_app; right; now left).
  assert (LE : forall x, edges ret x + count (imports p) x <= edges pp x).
  { intros x. rewrite (edges_perm _ _ x P). cbn [app]. rewrite edges_app. cbn [edges]. lia. }
  assert (R := release_spec (imports p) d queue).
  destruct (release (imports p) d queue) as [d' q']. destruct R as (D' & n & -> & NDn & IN).
  { intros x. rewrite DEG. specialize (LE x). lia. }
  assert (NDP := Permutation_NoDup P ND).
  assert (SUB : forall x, In x n -> In x rem).
  { intros x I. apply IN in I as (I & Z0).
    assert (IX : In x (ret ++ (p :: queue) ++ rem)) by (apply (Permutation_in x P); now apply (CL p)).
    assert (DX : d x <> 0%Z).
    { rewrite D' in Z0. apply (count_occ_In Nat.eq_dec) in I. unfold count in Z0. lia. }
    apply in_app_or in IX as [IX|IX].
    - exfalso. apply in_split in IX as (a & b & ->). assert (J := ORD a x b eq_refl p IP).
      assert (In p a) by (apply J; exact I).
      apply NoDup_remove_2 with (l := a ++ x :: b) (l' := queue ++ rem) (a := p); [exact NDP|].
      apply in_or_app. left. apply in_or_app. now left.
    - apply in_app_or in IX as [IX|IX]; [|exact IX]. now apply QU in IX. }
  constructor.
  - (* the rest without the newly queued *)
    assert (exists rem', Permutation rem (n ++ rem') /\ forall x, In x rem' -> ~ In x n) as (rem' & PR & DIS).
    { assert (NDR : NoDup rem) by (do 2 apply nodup_app_r in NDP; exact NDP).
      clear - SUB NDn NDR. revert rem NDR SUB. induction n as [|x n IH]; intros rem NDR SUB.
      - exists rem. split; [reflexivity|auto].
      - inversion NDn as [|a b NI ND']; subst.
        assert (I := SUB x (or_introl eq_refl)). apply in_split in I as (r1 & r2 & ->).
        assert (PM := Permutation_middle r1 r2 x).
        destruct (IH ND' (r1 ++ r2)) as (rem' & P & D).
        + now apply NoDup_remove_1 in NDR.
        + intros y J. assert (K := SUB y (or_intror J)). apply in_app_or in K. apply in_or_app.
          destruct K as [K|[->|K]]; [now left|now destruct NI|now right].
        + exists rem'. split; [cbn; rewrite <- P; now symmetry|].
          intros y J [<-|K]; [|now apply (D y)].
          apply NoDup_remove_2 in NDR. apply NDR. apply (Permutation_in x (Permutation_sym P)). apply in_or_app. now right. }
    exists rem'. split.
    + rewrite P. rewrite <- app_assoc. apply Permutation_app_head. cbn. apply perm_skip. rewrite <- app_assoc.
      apply Permutation_app_head. exact PR.
    + intros x J Z0. apply (DIS x J). apply IN. split; [|exact Z0].
      assert (JR : In x rem) by (apply (Permutation_in x (Permutation_sym PR)); apply in_or_app; now right).
      specialize (NZ x JR). rewrite D' in Z0.
      destruct (in_dec Nat.eq_dec x (imports p)) as [K|K]; [exact K|]. apply (count_occ_not_In Nat.eq_dec) in K. unfold count in Z0. lia.
  - intros x. rewrite D', DEG, edges_app. cbn [edges]. lia.
  - intros x I. apply in_app_or in I as [I|I]; [|now apply IN in I].
    assert (Q := QU x (or_intror I)). rewrite D'. specialize (LE x). rewrite DEG in Q. rewrite DEG. lia.
  - intros a x b E q IQ J. destruct b as [|b0 b] using rev_ind.
    + apply app_inj_tail in E as (-> & <-).
      (* every importer of p is sorted *)
      assert (Z0 := QU p (or_introl eq_refl)). rewrite DEG in Z0.
      assert (EQ : edges ((p :: queue) ++ rem) p = 0).
      { assert (K := edges_perm _ _ p P). rewrite edges_app in K. lia. }
      assert (IX := Permutation_in q P IQ). apply in_app_or in IX as [IX|IX]; [exact IX|].
      exfalso. exact (proj1 (edges_zero _ _) EQ q IX J).
    + clear IHb. rewrite app_comm_cons, app_assoc in E. apply app_inj_tail in E as (-> & <-). now apply (ORD a x b eq_refl).
Qed.

Lemma kahn_spec : forall k d queue ret, inv d queue ret -> length pp <= length ret + k ->
  exists r d', kahn imports k d queue ret = Some r /\ inv d' [] r.
Proof.
  induction k as [|k IH]; intros d queue ret V L.
  - destruct queue as [|p queue]; [exists ret, d; auto|]. exfalso. destruct V as [(rem & P & _) _ _ _].
    apply Permutation_length in P. rewrite !app_length in P. cbn in P. lia.
  - destruct queue as [|p queue]; [exists ret, d; auto|]. cbn [kahn].
    assert (V' := inv_step d p queue ret V). destruct (release (imports p) d queue) as [d' q'].
    apply (IH d' q' (ret ++ [p]) V'). rewrite app_length. cbn. lia.
Qed.

Lemma inv_start : inv (inDegree imports pp) (filter (fun p => Z.eqb (inDegree imports pp p) 0) pp) [].
Proof.
  constructor.
  - exists (filter (fun p => negb (Z.eqb (inDegree imports pp p) 0)) pp). split.
    + exact (filter_split (fun p => Z.eqb (inDegree imports pp p) 0) pp).
    + intros x I. apply filter_In in I as (_ & I). intros Z0. rewrite Z0 in I. discriminate.
  - intros x. rewrite inDegree_edges. cbn. lia.
  - intros x I. apply filter_In in I as (_ & I). now apply Z.eqb_eq in I.
  - intros a x b E. destruct a; discriminate.
Qed.

(** If there is a file left, each of the files left is imported by one left *)
Lemma inv_end : forall d r, inv d [] r -> exists rem, Permutation pp (r ++ rem) /\ forall x, In x rem -> exists p, In p rem /\ In x (imports p).
Proof.
  intros d r [(rem & P & NZ) DEG _ _]. exists rem. split; [exact P|]. intros x I.
  specialize (NZ x I). rewrite DEG, (edges_perm _ _ x P), edges_app in NZ.
  assert (E : edges rem x <> 0) by (cbn in NZ; lia). clear - E.
  induction rem as [|p rem IH]; [cbn in E; congruence|]. cbn [edges] in E.
  destruct (in_dec Nat.eq_dec x (imports p)) as [J|J]; [exists p; split; [now left|exact J]|].
  destruct IH as (q & I & K). { apply (count_occ_not_In Nat.eq_dec) in J. unfold count in E. lia. }
  exists q. split; [now right|exact K].
Qed.

Theorem sort_spec : forall rank k, (forall x y, In x pp -> In y (imports x) -> rank y < rank x) -> length pp <= k ->
  exists r, sortProtoFiles imports k pp = Some r /\ Permutation pp r /\
    forall a x b, r = a ++ x :: b -> forall p, In p pp -> In x (imports p) -> In p a.
Proof.
  intros rank k RK L. unfold sortProtoFiles.
  destruct (kahn_spec k _ _ [] inv_start) as (r & d & K & V); [cbn; lia|]. rewrite K.
  destruct (inv_end d r V) as (rem & P & IMP).
  assert (rem = []) as ->.
  { destruct rem as [|x0 rem]; [reflexivity|]. exfalso.
    assert (A : forall n x, In x (x0 :: rem) -> exists y, In y (x0 :: rem) /\ n <= rank y).
    { induction n as [|n IH]; intros x I; [exists x; split; [exact I|lia]|].
      destruct (IH x I) as (y & J & LE). destruct (IMP y J) as (p & IP & JP). exists p. split; [exact IP|].
      assert (rank y < rank p); [|lia]. apply RK; [|exact JP].
      apply (Permutation_in p (Permutation_sym P)). apply in_or_app. now right. }
    assert (B : forall l, exists m, forall y, In y l -> rank y <= m).
    { induction l as [|y l (m & IH)]; [exists 0; intros y []|]. exists (max (rank y) m). intros z [<-|I]; [lia|]. specialize (IH z I). lia. }
    destruct (B (x0 :: rem)) as (m & M). destruct (A (S m) x0 (or_introl eq_refl)) as (y & J & LE). specialize (M y J). lia. }
  rewrite app_nil_r in P. rewrite <- (Permutation_length P), Nat.eqb_refl.
  exists r. split; [reflexivity|]. split; [exact P|]. destruct V as [_ _ _ ORD]. exact ORD.
Qed.
End Kahn.
End Load.
