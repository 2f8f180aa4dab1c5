(** Before and after a decoding step in memory: what the step may touch, and how steps at
    struct fields, new variables and list elements make up steps of the whole. *)
From Coq Require Import Lia.
From Verif Require Import Base Wire Value HMem OwnSpec OwnMem.
Open Scope nat_scope.

(** The location [L] holds [v]; nothing else refers to what it owns; the input [b] and the
    variables in [T] are apart. *)
Record pre (h : mem) (A : nat -> Prop) (W : list nat) (x : mv) (v : val) (L : loc) (b : slice) (T : list nat) : Prop := {
  p_owns : owns h A W x v;
  p_load : hload h L = Some x;
  p_nodup : NoDup W;
  p_W : forall o, In o W -> ~ A o /\ o < next h /\ o <> l_obj L /\ o <> s_arr b;
  p_A : forall o, A o -> o < next h /\ o <> l_obj L;
  p_L : l_obj L < next h /\ l_obj L <> s_arr b;
  p_b : s_arr b < next h /\ valid_in h b;
  p_T : forall o, In o T -> o < next h /\ o <> l_obj L /\ ~ In o W /\ ~ A o /\ o <> s_arr b
}.

(** The location now holds [v'].  Only new memory, the owned objects, the location itself and
    [T] have been written; what is referred to now was before, or was owned, or is new. *)
Record post (h : mem) (A : nat -> Prop) (W : list nat) (L : loc) (T : list nat)
    (h' : mem) (x' : mv) (v' : val) (A' : nat -> Prop) (W' : list nat) (T' : list nat) : Prop := {
  q_owns : owns h' A' W' x' v';
  q_L : objs h' (l_obj L) = objs (hstore h L x') (l_obj L);
  q_next : next h <= next h';
  q_frame : forall o, o < next h -> o <> l_obj L -> ~ In o W -> ~ In o T -> objs h' o = objs h o;
  q_AA : incl_p A A';
  q_A : forall o, A' o -> (A o \/ In o W \/ next h <= o) /\ o < next h';
  q_nodup : NoDup W';
  q_W : forall o, In o W' -> (In o W \/ next h <= o) /\ o < next h' /\ ~ A' o;
  q_T : forall o, In o T' -> (In o T \/ next h <= o) /\ o < next h' /\ ~ In o W' /\ ~ A' o
}.

Lemma pre_load : forall h A W x v L b T, pre h A W x v L b T -> hload h L <> None.
Proof. intros h A W x v L b T H. rewrite (p_load _ _ _ _ _ _ _ _ H). discriminate. Qed.

Lemma store_same : forall h L x, hload h L = Some x -> objs (hstore h L x) (l_obj L) = objs h (l_obj L).
Proof.
  intros h L x H. rewrite hstore_self by (rewrite H; discriminate). unfold hload in H.
  destruct (nth_error (cells_of h (l_obj L)) (l_idx L)) as [c|] eqn:Ec; [|discriminate].
  assert (P : forall p c x, get_path p c = Some x -> put_path p x c = c).
  { clear. induction p as [|i p IH]; intros c x H; cbn in *; [now injection H|].
    destruct c; try discriminate. destruct (nth_error slots i) as [z|] eqn:Ez; [|discriminate].
    rewrite (IH _ _ H). f_equal. clear -Ez. revert i Ez. induction slots as [|a l IH]; destruct i; intro E; try discriminate.
    - now injection E as ->. - cbn in *. now rewrite IH. }
  rewrite (P _ _ _ H). unfold cells_of in *. destruct (objs h (l_obj L)) as [bb|l|m] eqn:Eo.
  - now destruct (l_idx L).
  - f_equal. clear -Ec. revert Ec. generalize (l_idx L). induction l as [|a l IH]; destruct n; intro E; try discriminate.
    + now injection E as ->. + cbn in *. now rewrite IH.
  - now destruct (l_idx L).
Qed.

Lemma post_refl : forall h A W x v L b T, pre h A W x v L b T -> post h A W L T h x v A W T.
Proof.
  intros h A W x v L b T [O Ld N PW PA PL Pb PT]. constructor; auto.
  - now rewrite store_same.
  - now intros o Ho.
  - intros o Ho. split; [now left|]. now apply PA.
  - intros o Ho. destruct (PW o Ho) as (? & ? & _). auto.
  - intros o Ho. destruct (PT o Ho) as (? & ? & ? & ? & _). auto.
Qed.

Lemma post_noT : forall h A W L T h' x' v' A' W' T', post h A W L T h' x' v' A' W' T' -> post h A W L T h' x' v' A' W' [].
Proof. intros h A W L T h' x' v' A' W' T' H. destruct H. constructor; auto. intros o []. Qed.

Lemma post_trans : forall h A W x v L b T h1 x1 v1 A1 W1 T1 h2 x2 v2 A2 W2 T2,
  pre h A W x v L b T -> post h A W L T h1 x1 v1 A1 W1 T1 -> post h1 A1 W1 L T1 h2 x2 v2 A2 W2 T2 ->
  post h A W L T h2 x2 v2 A2 W2 T2.
Proof.
  intros h A W x v L b T h1 x1 v1 A1 W1 T1 h2 x2 v2 A2 W2 T2 P Q R.
  pose proof (pre_load _ _ _ _ _ _ _ _ P) as Ld.
  destruct P, Q as [q1 q2 q3 q4 q5 q6 q7 q8 q9], R as [r1 r2 r3 r4 r5 r6 r7 r8 r9]. constructor; auto.
  - rewrite r2, (hstore_ext _ _ _ _ q2). now apply hstore_hstore.
  - lia.
  - intros o Lo Do Wo To. rewrite r4; [now apply q4|lia|exact Do| |].
    + intro K. destruct (q8 _ K) as ([K1|K1] & _); [now apply Wo|lia].
    + intro K. destruct (q9 _ K) as ([K1|K1] & _); [now apply To|lia].
  - intros o Ho. auto.
  - intros o Ho. destruct (r6 _ Ho) as ([K|[K|K]] & K2); (split; [|assumption]).
    + destruct (q6 _ K) as ([?|[?|?]] & ?); auto.
    + destruct (q8 _ K) as ([?|?] & ?); auto.
    + right. right. lia.
  - intros o Ho. destruct (r8 _ Ho) as ([K|K] & K2 & K3); (split; [|auto]).
    + destruct (q8 _ K) as ([?|?] & ?); auto.
    + right. lia.
  - intros o Ho. destruct (r9 _ Ho) as ([K|K] & K2 & K3 & K4); (split; [|auto]).
    + destruct (q9 _ K) as ([?|?] & ?); auto.
    + right. lia.
Qed.

Lemma post_b : forall h A W x v L b T h1 x1 v1 A1 W1 T1,
  pre h A W x v L b T -> post h A W L T h1 x1 v1 A1 W1 T1 -> objs h1 (s_arr b) = objs h (s_arr b).
Proof.
  intros h A W x v L b T h1 x1 v1 A1 W1 T1 P Q. destruct P, Q. apply q_frame0.
  - tauto. - intro K. apply (proj2 p_L0). now symmetry. - intro K. now apply p_W0 in K.
  - intro K. apply p_T0 in K. tauto.
Qed.

Lemma pre_post : forall h A W x v L b T h1 x1 v1 A1 W1 T1 b',
  pre h A W x v L b T -> post h A W L T h1 x1 v1 A1 W1 T1 -> s_arr b' = s_arr b -> valid_in h b' ->
  pre h1 A1 W1 x1 v1 L b' T1.
Proof.
  intros h A W x v L b T h1 x1 v1 A1 W1 T1 b' P Q Eb V.
  pose proof (pre_load _ _ _ _ _ _ _ _ P) as Ld. pose proof (post_b _ _ _ _ _ _ _ _ _ _ _ _ _ _ P Q) as Ob.
  destruct P as [p1 p2 p3 p4 p5 p6 p7 p8], Q as [q1 q2 q3 q4 q5 q6 q7 q8 q9]. constructor; auto.
  - rewrite (hload_ext _ _ _ q2). now apply hload_hstore.
  - intros o Ho. destruct (q8 _ Ho) as (K & K1 & K2). rewrite Eb. repeat split; auto; intro Z; subst o.
    + destruct K as [K|K]; [apply p4 in K; tauto|lia].
    + destruct K as [K|K]; [apply p4 in K; tauto|lia].
  - intros o Ho. destruct (q6 _ Ho) as (K & K1). split; auto. intro Z; subst o.
    destruct K as [K|[K|K]]; [apply p5 in K; tauto|apply p4 in K; tauto|lia].
  - rewrite Eb. lia.
  - rewrite Eb. split; [lia|]. unfold valid_in in *. rewrite Eb in *. unfold bytes_of in *. now rewrite Ob.
  - intros o Ho. destruct (q9 _ Ho) as (K & K1 & K2 & K3). rewrite Eb. repeat split; auto; intro Z; subst o.
    + destruct K as [K|K]; [apply p8 in K; tauto|lia].
    + destruct K as [K|K]; [apply p8 in K; tauto|lia].
Qed.

(** The same place with another slice of the same input *)
Lemma pre_sub : forall h A W x v L b T b', pre h A W x v L b T -> s_arr b' = s_arr b -> valid_in h b' -> pre h A W x v L b' T.
Proof. intros. eapply pre_post; eauto. now apply (post_refl _ _ _ _ _ _ b). Qed.

Lemma post_sameA : forall h A W x v L b T h1 x1 v1 A1 W1 T1,
  pre h A W x v L b T -> post h A W L T h1 x1 v1 A1 W1 T1 -> same_on A h h1.
Proof.
  intros h A W x v L b T h1 x1 v1 A1 W1 T1 P Q o Ho. destruct P, Q. destruct (p_A0 _ Ho) as [K1 K2].
  apply q_frame0; auto. - intro K. apply p_W0 in K. tauto. - intro K. apply p_T0 in K. tauto.
Qed.

(** ** Changes away from the location *)
Lemma post_side : forall h A W x v L b T h2 A2 T2, pre h A W x v L b T ->
  next h <= next h2 -> (forall o, o < next h -> ~ In o T -> objs h2 o = objs h o) ->
  incl_p A A2 -> (forall o, A2 o -> (A o \/ next h <= o) /\ o < next h2) ->
  (forall o, In o T2 -> (In o T \/ next h <= o) /\ o < next h2 /\ ~ A2 o) ->
  post h A W L T h2 x v A2 W T2.
Proof.
  intros h A W x v L b T h2 A2 T2 [p1 p2 p3 p4 p5 p6 p7 p8] N F I2 HA HT. constructor; auto.
  - apply (owns_frame h A h2 A2); auto.
    + intros o Ho. apply F; [now apply p5|]. intro K. apply p8 in K. tauto.
    + intros o Ho. apply F; [now apply p4|]. intro K. apply p8 in K. tauto.
  - rewrite store_same by exact p2. apply F; [tauto|]. intro K. apply p8 in K. tauto.
  - intros o Ho. destruct (HA _ Ho) as ([?|?] & ?); auto.
  - intros o Ho. destruct (p4 _ Ho) as (K1 & K2 & _). repeat split; auto; [lia|].
    intro K. destruct (HA _ K) as ([?|?] & ?); [auto|lia].
  - intros o Ho. destruct (HT _ Ho) as (K1 & K2 & K3). repeat split; auto.
    intro K. destruct K1 as [K1|K1]; [apply p8 in K1; tauto|apply p4 in K; lia].
Qed.

(** ** Storing at the location after allocating *)
Definition allocs (h h1 : mem) : Prop := next h <= next h1 /\ forall o, o < next h -> objs h1 o = objs h o.
Lemma allocs_refl : forall h, allocs h h.
Proof. split; auto. Qed.
Lemma allocs_halloc : forall h x, allocs h (fst (halloc h x)).
Proof. intros. split; [rewrite halloc_next; lia|]. intros o Ho. now apply halloc_old. Qed.
Lemma allocs_trans : forall a b c, allocs a b -> allocs b c -> allocs a c.
Proof. intros a b c [H1 H2] [K1 K2]. split; [lia|]. intros o Ho. rewrite K2 by lia. auto. Qed.

Lemma post_store : forall h A W x v L b T h1 x' v' A' W', pre h A W x v L b T -> allocs h h1 ->
  owns h1 A' W' x' v' -> incl_p A A' -> (forall o, A' o -> (A o \/ next h <= o) /\ o < next h1) ->
  NoDup W' -> (forall o, In o W' -> next h <= o < next h1 /\ ~ A' o) ->
  post h A W L T (hstore h1 L x') x' v' A' W' T.
Proof.
  intros h A W x v L b T h1 x' v' A' W' [p1 p2 p3 p4 p5 p6 p7 p8] [N F] O I2 HA ND HW.
  assert (NL : forall o, A' o -> o <> l_obj L).
  { intros o Ho ->. destruct (HA _ Ho) as ([K|K] & _); [apply p5 in K; tauto|lia]. }
  constructor; auto.
  - apply (owns_frame h1 A' _ A'); auto.
    + intros o Ho. apply hstore_other. now apply NL.
    + now intros o Ho.
    + intros o Ho. apply hstore_other. intros ->. apply HW in Ho. lia.
  - apply hstore_ext. apply F. lia.
  - rewrite hstore_next. lia.
  - intros o Lo Do _ _. rewrite hstore_other by exact Do. auto.
  - rewrite hstore_next. intros o Ho. destruct (HA _ Ho) as ([?|?] & ?); auto.
  - rewrite hstore_next. intros o Ho. destruct (HW _ Ho) as (? & ?). repeat split; auto; try lia.
  - rewrite hstore_next. intros o Ho. destruct (p8 _ Ho) as (K1 & K2 & K3 & K4 & _). repeat split; auto; [lia| |].
    + intro K. apply HW in K. lia.
    + intro K. destruct (HA _ K) as ([?|?] & ?); [auto|lia].
Qed.

(** ** A struct field *)
Lemma NoDup_app3 : forall {X} (a b c : list X), NoDup (a ++ b ++ c) ->
  NoDup b /\ (forall o, In o b -> ~ In o a /\ ~ In o c) /\ NoDup (a ++ c).
Proof.
  intros X a b c H. induction a as [|y a IH]; cbn in *.
  - induction b as [|z b IHb]; cbn in *.
    + split; [constructor|]. split; [intros o []|exact H].
    + inversion H; subst. destruct (IHb H3) as (K1 & K2 & K3). split.
      * constructor; [|exact K1]. intro K. apply H2, in_or_app. now left.
      * split; [|exact K3]. intros o [->|Ho]; [|now apply K2]. split; [now intros []|].
        intro K. apply H2, in_or_app. now right.
  - inversion H; subst. destruct (IH H3) as (K1 & K2 & K3). split; [exact K1|]. split.
    + intros o Ho. destruct (K2 _ Ho) as [Ka Kc]. split; [|exact Kc]. intros [->|K]; [|auto].
      apply H2, in_or_app. right. apply in_or_app. now left.
    + constructor; [|exact K3]. intro K. apply H2. apply in_app_or in K as [K|K]; apply in_or_app; [now left|].
      right. apply in_or_app. now right.
Qed.
Lemma NoDup_mid : forall {X} (a b c : list X), NoDup (a ++ c) -> NoDup b ->
  (forall o, In o b -> ~ In o a /\ ~ In o c) -> NoDup (a ++ b ++ c).
Proof.
  intros X a b c H Hb D. induction a as [|y a IH]; cbn in *.
  - induction b as [|z b IHb]; cbn in *; [exact H|]. inversion Hb; subst. constructor.
    + intro K. apply in_app_or in K as [K|K]; [auto|]. apply (D z); auto.
    + apply IHb; auto.
  - inversion H; subst. constructor.
    + intro K. apply in_app_or in K as [K|K]; [apply H2, in_or_app; now left|].
      apply in_app_or in K as [K|K]; [destruct (D y K) as [Z _]; apply Z; now left|apply H2, in_or_app; now right].
    + apply IH; auto. intros o Ho. destruct (D o Ho) as [K1 K2]. split; tauto.
Qed.

Lemma pre_slot : forall h A W xs u vs ub L b T i x, pre h A W (MStruct xs u) (VStruct vs ub) L b T ->
  nth_error xs i = Some x ->
  exists v Wi, nth_error vs i = Some v /\ pre h A Wi x v (slot L i) b T /\
    forall h' x' v' A' Wi' T', post h A Wi (slot L i) T h' x' v' A' Wi' T' ->
    exists W', post h A W L T h' (MStruct (upd_nth i x' xs) u) (VStruct (upd_nth i v' vs) ub) A' W' T'.
Proof.
  intros h A W xs u vs ub L b T i x P Hx. pose proof P as P0. destruct P as [p1 p2 p3 p4 p5 p6 p7 p8].
  assert (exists W1 W2, W = W1 ++ W2 /\ owns_all h A W1 xs vs /\ owns_unknown h W2 u ub) as (W1 & W2 & -> & H1 & H2).
  { remember (MStruct xs u) as st. remember (VStruct vs ub) as sv.
    destruct p1 as [? ? Lf ?| | | | |xs0 vs0 u0 ub0 W1 W2 H1 H2]; subst; try discriminate; [now destruct Lf|].
    injection Heqst as -> ->. injection Heqsv as -> ->. now exists W1, W2. }
  destruct (owns_all_nth _ _ _ _ _ H1 _ _ Hx) as (v & xa & xb & va & vb & Wa & Wi & Wb & Ev & -> & -> & Ea & Eb & -> & Oi & Oa & Ob).
  rewrite <- !app_assoc in p3. destruct (NoDup_app3 _ _ _ p3) as (N1 & N2 & N3).
  exists v, Wi. split; [exact Ev|].
  assert (Ii : forall o, In o Wi -> In o ((Wa ++ Wi ++ Wb) ++ W2)).
  { intros o Ho. rewrite !in_app_iff. tauto. }
  assert (Pi : pre h A Wi x v (slot L i) b T).
  { constructor; auto.
    - rewrite (hload_slot _ _ _ _ _ p2). exact Hx.
    - intros o Ho. destruct (p8 _ Ho) as (? & ? & K & ? & ?). repeat split; auto. }
  split; [exact Pi|].
  intros h' x' v' A' Wi' T' Q. exists (Wa ++ Wi' ++ Wb ++ W2).
  pose proof (post_sameA _ _ _ _ _ _ _ _ _ _ _ _ _ _ Pi Q) as SA.
  destruct Q as [q1 q2 q3 q4 q5 q6 q7 q8 q9].
  rewrite <- Ea at 1. rewrite upd_nth_app. rewrite <- Eb at 1. rewrite upd_nth_app.
  assert (Fr : forall o, In o (Wa ++ Wb ++ W2) -> objs h' o = objs h o).
  { intros o Ho. assert (Io : In o ((Wa ++ Wi ++ Wb) ++ W2)) by (rewrite !in_app_iff in *; tauto).
    destruct (p4 _ Io) as (? & ? & ? & _). apply q4; auto.
    - intro K. apply N2 in K. rewrite !in_app_iff in *. tauto.
    - intro K. apply p8 in K. tauto. }
  constructor; auto.
  - replace (Wa ++ Wi' ++ Wb ++ W2) with ((Wa ++ Wi' ++ Wb) ++ W2) by now rewrite <- !app_assoc.
    constructor.
    + apply owns_all_app; [|constructor; [exact q1|]].
      * apply (owns_all_frame h A h' A' SA q5); [exact Oa|]. intros o Ho. apply Fr. rewrite in_app_iff. tauto.
      * apply (owns_all_frame h A h' A' SA q5); [exact Ob|]. intros o Ho. apply Fr. rewrite !in_app_iff. tauto.
    + destruct H2 as [|s Z0 Z1|s Z0 Z1 Z2]; [constructor|now constructor|].
      assert (Es : objs h' (s_arr s) = objs h (s_arr s)) by (apply Fr; rewrite !in_app_iff; right; right; now left).
      rewrite <- (rd_ext h h' s) by now right. constructor; try assumption. unfold bytes_of. now rewrite Es.
  - cbn [slot l_obj] in q2. rewrite q2. rewrite (hstore_slot _ _ _ _ _ _ p2) by (rewrite Hx; discriminate).
    rewrite <- Ea at 1. now rewrite upd_nth_app.
  - intros o Ho. destruct (q6 _ Ho) as ([K|[K|K]] & K2); (split; [|exact K2]); auto.
  - apply NoDup_mid; auto. intros o Ho. destruct (q8 _ Ho) as ([K|K] & K2 & K3).
    + now apply N2.
    + split; intro Z; assert (Io : In o ((Wa ++ Wi ++ Wb) ++ W2)) by (rewrite !in_app_iff in *; tauto); apply p4 in Io; lia.
  - intros o Ho. rewrite !in_app_iff in Ho.
    assert (Z : In o Wi' \/ In o (Wa ++ Wb ++ W2)) by (rewrite !in_app_iff; tauto). destruct Z as [Z|Z].
    + destruct (q8 _ Z) as ([K|K] & K2 & K3); auto.
    + assert (Io : In o ((Wa ++ Wi ++ Wb) ++ W2)) by (rewrite !in_app_iff in *; tauto).
      destruct (p4 _ Io) as (K1 & K2 & _). split; [now left|]. split; [lia|].
      intro K. destruct (q6 _ K) as ([K3|[K3|K3]] & _); [auto| |lia].
      apply N2 in K3. rewrite !in_app_iff in *. tauto.
  - intros o Ho. destruct (q9 _ Ho) as (K & K1 & K2 & K3). repeat split; auto. intro Z.
    assert (Z' : In o Wi' \/ In o (Wa ++ Wb ++ W2)) by (rewrite !in_app_iff in *; tauto). destruct Z' as [Z'|Z']; [auto|].
    assert (Io : In o ((Wa ++ Wi ++ Wb) ++ W2)) by (rewrite !in_app_iff in *; tauto).
    destruct K as [K|K]; [apply p8 in K; tauto|apply p4 in Io; lia].
Qed.

(** ** A new variable to which the location points *)
Lemma pre_cell : forall h A W x v L b T x0 v0 y, pre h A W x v L b T -> (forall h1, owns h1 A [] x0 v0) ->
  pre (hstore (fst (halloc h (OCells [x0]))) L y) A [] x0 v0 (cell (next h)) b T.
Proof.
  intros h A W x v L b T x0 v0 y [p1 p2 p3 p4 p5 p6 p7 p8] O. constructor; cbn [l_obj cell].
  - apply O.
  - unfold hload, cells_of. cbn [cell l_obj]. rewrite hstore_other by lia. now rewrite halloc_new.
  - constructor.
  - intros o [].
  - rewrite hstore_next, halloc_next. intros o Ho. apply p5 in Ho. lia.
  - rewrite hstore_next, halloc_next. lia.
  - rewrite hstore_next, halloc_next. split; [lia|]. unfold valid_in, bytes_of in *.
    rewrite hstore_other by (intro Z; apply (proj2 p6); now symmetry). rewrite halloc_old by tauto. tauto.
  - rewrite hstore_next, halloc_next. intros o Ho. apply p8 in Ho. repeat split; try tauto; try lia; cbn; tauto.
Qed.

Lemma post_cell : forall h A W x v L b T x0 v0 y vy h' x' v' A' W' T', pre h A W x v L b T ->
  (forall h1, owns h1 A [] x0 v0) ->
  post (hstore (fst (halloc h (OCells [x0]))) L y) A [] (cell (next h)) T h' x' v' A' W' T' ->
  leaf y ->
  (forall A2 : nat -> Prop, A2 (next h) -> hload h' (cell (next h)) = Some x' -> reads h' A2 x' v' -> reads h' A2 y vy) ->
  post h A W L T h' y vy (fun o => A' o \/ o = next h \/ In o W') [] T'.
Proof.
  intros h A W x v L b T x0 v0 y vy h' x' v' A' W' T' P O Q Ly HR.
  pose proof (pre_cell _ _ _ _ _ _ _ _ _ _ y P O) as Pc.
  pose proof (pre_load _ _ _ _ _ _ _ _ Pc) as Lc.
  destruct P as [p1 p2 p3 p4 p5 p6 p7 p8], Q as [q1 q2 q3 q4 q5 q6 q7 q8 q9].
  rewrite hstore_next, halloc_next in *. cbn [l_obj cell] in *.
  constructor.
  - constructor; [exact Ly|]. apply HR; [tauto| |].
    + rewrite (hload_ext (hstore (hstore (fst (halloc h (OCells [x0]))) L y) (cell (next h)) x') h'); [|exact q2].
      now apply hload_hstore.
    + eapply owns_reads; [|exact q1|]; [intros o Ho; cbn; tauto|intros o Ho; cbn; tauto].
  - rewrite q4; [|lia|lia|intro Z; exact Z|intro K; apply p8 in K; tauto].
    apply hstore_ext. apply halloc_old. tauto.
  - lia.
  - intros o Lo Do Wo To. rewrite q4; [|lia|lia|intro Z; exact Z|exact To]. rewrite hstore_other by exact Do.
    now apply halloc_old.
  - intros o Ho. left. auto.
  - intros o [Ho|[->|Ho]].
    + destruct (q6 _ Ho) as ([K|[[]|K]] & K2); (split; [|exact K2]); [tauto|right; right; lia].
    + split; [right; right; lia|lia].
    + destruct (q8 _ Ho) as ([[]|K] & K2 & _). split; [right; right; lia|exact K2].
  - constructor.
  - intros o [].
  - intros o Ho. destruct (q9 _ Ho) as (K & K1 & K2 & K3). repeat split; auto.
    + destruct K as [K|K]; [tauto|right; lia].
    + intros [Z|[Z|Z]]; [auto| |auto]. subst o. destruct K as [K|K]; [apply p8 in K; lia|lia].
Qed.

(** ** A new element of a list *)
Definition longer (s : slice) : slice := mkSl (s_arr s) (s_off s) (S (s_len s)) (s_cap s).

Section Elem.
Variables (h : mem) (A : nat -> Prop) (W : list nat) (x : mv) (v : val) (L : loc) (b : slice) (T : list nat).
Hypothesis P : pre h A W x v L b T.
Variables (h1 : mem) (s : slice) (xs ys : list mv) (y0 : mv) (es sp : list val) (e0 : val) (We Ws : list nat).
Hypothesis HA : allocs h h1.
Hypothesis HC : has_cells h1 s xs (y0 :: ys).
Hypothesis HX : reads_all h1 A xs es.
Hypothesis HY : owns h1 A We y0 e0.
Hypothesis HS : owns_all h1 A Ws ys sp.
Hypothesis HN : NoDup (s_arr s :: We ++ Ws).
Hypothesis HW : forall o, In o (s_arr s :: We ++ Ws) -> (In o W \/ next h <= o) /\ o < next h1 /\ ~ A o.
Let h2 := hstore h1 L (MSlice (longer s)).

Lemma elem_L : forall o, In o (s_arr s :: We ++ Ws) -> o <> l_obj L /\ o <> s_arr b /\ ~ In o T.
Proof.
  intros o Ho. destruct (HW _ Ho) as ([K|K] & K1 & K2); destruct P.
  - destruct (p_W0 _ K) as (? & ? & ? & ?). repeat split; auto. intro Z. apply p_T0 in Z. tauto.
  - repeat split; [lia|lia|]. intro Z. apply p_T0 in Z. lia.
Qed.
Lemma elem_obj : objs h2 (s_arr s) = objs h1 (s_arr s).
Proof. apply hstore_other. apply elem_L. now left. Qed.

Lemma pre_elem : pre h2 A We y0 e0 (elem s (s_len s)) b T.
Proof.
  pose proof P as P0. destruct P as [p1 p2 p3 p4 p5 p6 p7 p8]. destruct HA as [N F].
  pose proof HC as (q1 & q2 & Hc & Hq1 & Hx & Hy).
  unfold h2. constructor; rewrite ?hstore_next; cbn [elem l_obj].
  - apply (owns_frame h1 A _ A); auto.
    + intros o Ho. apply hstore_other. intros ->. apply p5 in Ho. tauto.
    + now intros o Ho.
    + intros o Ho. apply hstore_other. apply elem_L. right. apply in_or_app. now left.
  - unfold hload, cells_of. cbn [elem l_obj l_idx l_path get_path]. fold h2. rewrite elem_obj.
    unfold cells_of in Hc. rewrite Hc.
    replace (s_off s + s_len s) with (length (q1 ++ xs)) by (rewrite app_length; lia).
    replace (q1 ++ xs ++ (y0 :: ys) ++ q2) with ((q1 ++ xs) ++ y0 :: (ys ++ q2)) by now rewrite <- app_assoc.
    now rewrite nth_error_mid.
  - inversion HN; subst. clear -H2. induction We as [|z We' IH]; [constructor|]. cbn in H2. inversion H2; subst.
    constructor; [|auto]. intro K. apply H1, in_or_app. now left.
  - intros o Ho. assert (Io : In o (s_arr s :: We ++ Ws)) by (right; apply in_or_app; now left).
    destruct (HW _ Io) as (K & K1 & K2). destruct (elem_L _ Io) as (K3 & K4 & K5). repeat split; auto.
    intros ->. inversion HN; subst. apply H1, in_or_app. now left.
  - intros o Ho. destruct (p5 _ Ho) as [K1 K2]. split; [lia|]. intros ->.
    destruct (HW (s_arr s)) as (_ & _ & K); [now left|auto].
  - destruct (HW (s_arr s)) as (_ & K1 & _); [now left|]. destruct (elem_L (s_arr s)) as (_ & K2 & _); [now left|]. auto.
  - split; [lia|]. unfold valid_in, bytes_of in *.
    rewrite hstore_other by (intro Z; apply (proj2 p6); now symmetry). rewrite F by tauto. tauto.
  - intros o Ho. destruct (p8 _ Ho) as (K1 & K2 & K3 & K4 & K5). repeat split; auto; [lia| |].
    + intros ->. destruct (elem_L (s_arr s)) as (_ & _ & Z); [now left|auto].
    + intro Z. destruct (elem_L o) as (_ & _ & Z'); [right; apply in_or_app; now left|auto].
Qed.

Lemma post_elem : forall h' x' v' A' W' T', post h2 A We (elem s (s_len s)) T h' x' v' A' W' T' ->
  post h A W L T h' (MSlice (longer s)) (VSlice (es ++ [v']) sp) (fun o => A' o \/ In o W') (s_arr s :: Ws) T'.
Proof.
  intros h' x' v' A' W' T' Q. pose proof pre_elem as Pe.
  pose proof (post_sameA _ _ _ _ _ _ _ _ _ _ _ _ _ _ Pe Q) as SA.
  pose proof (pre_load _ _ _ _ _ _ _ _ Pe) as Le.
  pose proof (pre_load _ _ _ _ _ _ _ _ P) as LL.
  destruct Q as [q1 q2 q3 q4 q5 q6 q7 q8 q9]. cbn [elem l_obj] in *.
  pose proof P as P0. destruct P as [p1 p2 p3 p4 p5 p6 p7 p8]. destruct HA as [N F].
  pose proof HC as (c1 & c2 & Hc & Hc1 & Hx & Hy).
  assert (SA1 : same_on A h1 h').
  { intros o Ho. rewrite SA by exact Ho. apply hstore_other. intros ->. apply p5 in Ho. tauto. }
  assert (Cs : cells_of h' (s_arr s) = c1 ++ (xs ++ [x']) ++ ys ++ c2).
  { unfold cells_of. rewrite q2, hstore_self by exact Le. cbn [elem l_obj l_idx l_path put_path].
    assert (Ec : cells_of h2 (s_arr s) = (c1 ++ xs) ++ y0 :: (ys ++ c2)).
    { unfold cells_of in *. rewrite elem_obj, Hc. now rewrite <- app_assoc. }
    rewrite Ec. replace (s_off s + s_len s) with (length (c1 ++ xs)) by (rewrite app_length; lia).
    rewrite nth_error_mid, upd_nth_app. now rewrite <- !app_assoc. }
  assert (NE : NoDup We /\ (forall o, In o We -> o <> s_arr s /\ ~ In o Ws) /\ NoDup (s_arr s :: Ws)).
  { destruct (NoDup_app3 [s_arr s] We Ws HN) as (K1 & K2 & K3). split; [exact K1|]. split; [|exact K3].
    intros o Ho. destruct (K2 _ Ho) as [K4 K5]. split; [|exact K5]. intros ->. apply K4. now left. }
  destruct NE as (_ & NE & NS).
  assert (Ins : forall o, In o (s_arr s :: Ws) -> In o (s_arr s :: We ++ Ws)).
  { intros o [Ho|Ho]; [now left|right; apply in_or_app; now right]. }
  unfold h2 in *. rewrite hstore_next in *.
  constructor.
  - change (s_arr s :: Ws) with (s_arr (longer s) :: Ws). eapply owns_slice with (xs := xs ++ [x']) (ys := ys).
    + cbn in *. lia.
    + exists c1, c2. cbn [longer s_arr s_off s_len s_cap]. rewrite app_length. cbn [length] in *. repeat split; [exact Cs|lia|lia|lia].
    + apply reads_all_app; [|constructor; [|constructor]].
      * eapply (reads_all_frame h1 A h' _ SA1); [|exact HX]. intros o Ho. left. auto.
      * eapply owns_reads; [|exact q1|]; intros o Ho; cbn; tauto.
    + eapply (owns_all_frame h1 A h' _ SA1); [|exact HS|].
      * intros o Ho. left. auto.
      * intros o Ho. assert (Io : In o (s_arr s :: We ++ Ws)) by (apply Ins; now right).
        destruct (HW _ Io) as (_ & K1 & _). destruct (elem_L _ Io) as (K2 & K3 & K4).
        rewrite q4; [now apply hstore_other|exact K1| |intro Z; apply NE in Z; tauto|exact K4].
        intros ->. inversion NS; subst. auto.
  - rewrite q4; [apply hstore_ext; apply F; tauto|lia| | |].
    + intro Z. destruct (elem_L (s_arr s)) as (K & _); [now left|auto].
    + intro Z. destruct (elem_L (l_obj L)) as (K & _); [right; apply in_or_app; now left|auto].
    + intro K. apply p8 in K. tauto.
  - lia.
  - intros o Lo Do Wo To. rewrite q4; [|lia| | |exact To].
    + rewrite hstore_other by exact Do. apply F. lia.
    + intros ->. destruct (HW (s_arr s)) as ([K|K] & _); [now left|auto|lia].
    + intro K. destruct (HW o) as ([Z|Z] & _); [right; apply in_or_app; now left|auto|lia].
  - intros o Ho. left. auto.
  - intros o [Ho|Ho].
    + destruct (q6 _ Ho) as ([K|[K|K]] & K2); (split; [|exact K2]); [tauto| |right; right; lia].
      destruct (HW o) as ([Z|Z] & _); [right; apply in_or_app; now left|tauto|tauto].
    + destruct (q8 _ Ho) as ([K|K] & K2 & _); (split; [|exact K2]); [|right; right; lia].
      destruct (HW o) as ([Z|Z] & _); [right; apply in_or_app; now left|tauto|tauto].
  - exact NS.
  - intros o Ho. destruct (HW _ (Ins _ Ho)) as (K1 & K2 & K3). split; [exact K1|]. split; [lia|].
    assert (Z : ~ In o We).
    { intro Z. apply NE in Z. destruct Ho as [Ho|Ho]; [symmetry in Ho|]; tauto. }
    intros [K|K].
    + destruct (q6 _ K) as ([K4|[K4|K4]] & _); [auto|auto|lia].
    + destruct (q8 _ K) as ([K4|K4] & _); [auto|lia].
  - intros o Ho. destruct (q9 _ Ho) as (K & K1 & K2 & K3). split; [|split; [exact K1|split]].
    + destruct K as [K|K]; [now left|right; lia].
    + intro Z. destruct (HW _ (Ins _ Z)) as (_ & K4 & _). destruct (elem_L _ (Ins _ Z)) as (_ & _ & K5).
      destruct K as [K|K]; [auto|lia].
    + intros [Z|Z]; auto.
Qed.
End Elem.
