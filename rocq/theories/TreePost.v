(** Before and after a decoding step on a tree in memory: how steps at struct fields, new
    variables, list elements and map entries make up steps of the whole. *)
From Coq Require Import Lia.
From Verif Require Import Base Wire Value HMem OwnSpec OwnMem OwnPost TreeSpec TreeMem.
Open Scope nat_scope.

(** The location [L] holds a tree made of [F]; the variables in [T] are apart. *)
Record tpre (h : mem) (F : list nat) (x : mv) (L : loc) (T : list nat) : Prop := {
  t_parts : parts h x F;
  t_load : hload h L = Some x;
  t_nodup : NoDup F;
  t_F : forall o, In o F -> o < next h /\ o <> l_obj L;
  t_L : l_obj L < next h;
  t_T : forall o, In o T -> o < next h /\ o <> l_obj L /\ ~ In o F
}.
(** The location now holds a tree made of [F']: objects of [F], and new ones.  Only new memory,
    [F], the location itself and [T] have been written. *)
Record tpost (h : mem) (F : list nat) (L : loc) (T : list nat) (h' : mem) (x' : mv) (F' T' : list nat) : Prop := {
  u_parts : parts h' x' F';
  u_L : objs h' (l_obj L) = objs (hstore h L x') (l_obj L);
  u_next : next h <= next h';
  u_frame : forall o, o < next h -> o <> l_obj L -> ~ In o F -> ~ In o T -> objs h' o = objs h o;
  u_nodup : NoDup F';
  u_F : forall o, In o F' -> (In o F \/ next h <= o) /\ o < next h';
  u_T : forall o, In o T' -> (In o T \/ next h <= o) /\ o < next h' /\ ~ In o F'
}.

Lemma tpre_load : forall h F x L T, tpre h F x L T -> hload h L <> None.
Proof. intros h F x L T H. rewrite (t_load _ _ _ _ _ H). discriminate. Qed.
Lemma tpre_noT : forall h F x L T, tpre h F x L T -> tpre h F x L [].
Proof. intros h F x L T P. destruct P. constructor; auto. intros o []. Qed.
Lemma tpost_noT : forall h F L T h' x' F' T', tpost h F L T h' x' F' T' -> tpost h F L T h' x' F' [].
Proof. intros h F L T h' x' F' T' H. destruct H. constructor; auto. intros o []. Qed.

Lemma tpost_refl : forall h F x L T, tpre h F x L T -> tpost h F L T h x F T.
Proof.
  intros h F x L T [p1 p2 p3 p4 p5 p6]. constructor; auto.
  - now rewrite store_same.
  - intros o Ho. split; [now left|]. now apply p4.
  - intros o Ho. destruct (p6 o Ho) as (? & ? & ?). auto.
Qed.
Lemma tpost_trans : forall h F x L T h1 x1 F1 T1 h2 x2 F2 T2,
  tpre h F x L T -> tpost h F L T h1 x1 F1 T1 -> tpost h1 F1 L T1 h2 x2 F2 T2 -> tpost h F L T h2 x2 F2 T2.
Proof.
  intros h F x L T h1 x1 F1 T1 h2 x2 F2 T2 P Q R. pose proof (tpre_load _ _ _ _ _ P) as Ld.
  destruct P, Q as [q1 q2 q3 q4 q5 q6 q7], R as [r1 r2 r3 r4 r5 r6 r7]. constructor; auto.
  - rewrite r2, (hstore_ext _ _ _ _ q2). now apply hstore_hstore.
  - lia.
  - intros o Lo Do Wo To. rewrite r4; [now apply q4|lia|exact Do| |].
    + intro K. destruct (q6 _ K) as ([K1|K1] & _); [now apply Wo|lia].
    + intro K. destruct (q7 _ K) as ([K1|K1] & _); [now apply To|lia].
  - intros o Ho. destruct (r6 _ Ho) as ([K|K] & K2); (split; [|assumption]).
    + destruct (q6 _ K) as ([?|?] & ?); auto.
    + right. lia.
  - intros o Ho. destruct (r7 _ Ho) as ([K|K] & K2 & K3); (split; [|auto]).
    + destruct (q7 _ K) as ([?|?] & ?); auto.
    + right. lia.
Qed.
Lemma tpre_post : forall h F x L T h1 x1 F1 T1, tpre h F x L T -> tpost h F L T h1 x1 F1 T1 -> tpre h1 F1 x1 L T1.
Proof.
  intros h F x L T h1 x1 F1 T1 P Q. pose proof (tpre_load _ _ _ _ _ P) as Ld.
  destruct P as [p1 p2 p3 p4 p5 p6], Q as [q1 q2 q3 q4 q5 q6 q7]. constructor; auto.
  - rewrite (hload_ext _ _ _ q2). now apply hload_hstore.
  - intros o Ho. destruct (q6 _ Ho) as (K & K1). split; [exact K1|]. intros ->.
    destruct K as [K|K]; [apply p4 in K; tauto|lia].
  - lia.
  - intros o Ho. destruct (q7 _ Ho) as (K & K1 & K2). repeat split; auto. intros ->.
    destruct K as [K|K]; [apply p6 in K; tauto|lia].
Qed.
(** A step that does not know about [T] *)
Lemma tpost_T : forall h F x L T h' x' F', tpre h F x L T -> tpost h F L [] h' x' F' [] ->
  tpost h F L T h' x' F' T /\ forall o, In o T -> objs h' o = objs h o.
Proof.
  intros h F x L T h' x' F' P Q. destruct P as [p1 p2 p3 p4 p5 p6], Q as [q1 q2 q3 q4 q5 q6 q7]. split.
  - constructor; auto. intros o Ho. destruct (p6 _ Ho) as (K1 & K2 & K3).
    split; [now left|]. split; [lia|]. intro Z. destruct (q6 _ Z) as ([?|?] & _); [auto|lia].
  - intros o Ho. destruct (p6 _ Ho) as (K1 & K2 & K3). now apply q4.
Qed.
Lemma tpost_moreT : forall h F L T h' x' F' T', tpost h F L [] h' x' F' T' -> tpost h F L T h' x' F' T'.
Proof.
  intros h F L T h' x' F' T' [q1 q2 q3 q4 q5 q6 q7]. constructor; auto.
  intros o Ho. destruct (q7 _ Ho) as ([[]|K] & K1). auto.
Qed.

(** ** Changes away from the location *)
Lemma tpost_side : forall h F x L T h2 T2, tpre h F x L T -> next h <= next h2 ->
  (forall o, o < next h -> ~ In o T -> objs h2 o = objs h o) ->
  (forall o, In o T2 -> (In o T \/ next h <= o) /\ o < next h2) ->
  tpost h F L T h2 x F T2.
Proof.
  intros h F x L T h2 T2 [p1 p2 p3 p4 p5 p6] N Fr HT. constructor; auto.
  - apply (parts_frame h h2); auto. intros o Ho. apply Fr; [now apply p4|]. intro K. apply p6 in K. tauto.
  - rewrite store_same by exact p2. apply Fr; [tauto|]. intro K. apply p6 in K. tauto.
  - intros o Ho. destruct (p4 _ Ho) as (K1 & _). split; [now left|lia].
  - intros o Ho. destruct (HT _ Ho) as (K1 & K2). repeat split; auto.
    intro K. destruct K1 as [K1|K1]; [apply p6 in K1; tauto|apply p4 in K; lia].
Qed.

(** ** Storing at the location *)
Lemma tpost_update : forall h F x L T h1 x' F', tpre h F x L T -> next h <= next h1 ->
  (forall o, o < next h -> ~ In o F -> objs h1 o = objs h o) -> parts h1 x' F' -> NoDup F' ->
  (forall o, In o F' -> (In o F \/ next h <= o) /\ o < next h1) ->
  tpost h F L T (hstore h1 L x') x' F' T.
Proof.
  intros h F x L T h1 x' F' [p1 p2 p3 p4 p5 p6] N Fr O ND HF.
  assert (NL : ~ In (l_obj L) F) by (intro K; apply p4 in K; tauto).
  constructor; auto; rewrite ?hstore_next.
  - apply (parts_frame h1 _); auto. intros o Ho. apply hstore_other. intros ->. destruct (HF _ Ho) as ([K|K] & _); [auto|lia].
  - apply hstore_ext. apply Fr; [tauto|exact NL].
  - exact N.
  - intros o Lo Do Wo _. rewrite hstore_other by exact Do. auto.
  - intros o Ho. apply HF in Ho as Z. exact Z.
  - intros o Ho. destruct (p6 _ Ho) as (K1 & K2 & K3). repeat split; auto; [lia|].
    intro Z. destruct (HF _ Z) as ([K|K] & _); [auto|lia].
Qed.
Lemma tpost_new : forall h F x L T h1 x' F', tpre h F x L T -> allocs h h1 -> parts h1 x' F' -> NoDup F' ->
  (forall o, In o F' -> next h <= o < next h1) -> tpost h F L T (hstore h1 L x') x' F' T.
Proof.
  intros h F x L T h1 x' F' P [N Fr] O ND HF. eapply tpost_update; eauto. intros o Ho. apply HF in Ho. split; [right; lia|lia].
Qed.

(** ** A struct field *)
Lemma parts_struct_inv : forall h xs u F, parts h (MStruct xs u) F ->
  exists F1, F = F1 ++ unknown_parts u /\ parts_all h xs F1 /\ sized u.
Proof. intros h xs u F H. inversion H; subst. eauto. Qed.

Lemma tpre_slot : forall h F xs u L T i x, tpre h F (MStruct xs u) L T -> nth_error xs i = Some x ->
  exists Fi, tpre h Fi x (slot L i) T /\
    forall h' x' Fi' T', tpost h Fi (slot L i) T h' x' Fi' T' ->
    exists F', tpost h F L T h' (MStruct (upd_nth i x' xs) u) F' T'.
Proof.
  intros h F xs u L T i x P Hx. pose proof P as P0. destruct P as [p1 p2 p3 p4 p5 p6].
  apply parts_struct_inv in p1 as (F1 & -> & PA & SZ).
  destruct (parts_all_nth _ _ _ _ _ PA Hx) as (xa & xb & Fa & Fi & Fb & -> & Ea & -> & Pi & Pa & Pb).
  set (F2 := unknown_parts u) in *.
  rewrite <- !app_assoc in p3. destruct (NoDup_app3 _ _ _ p3) as (N1 & N2 & N3).
  exists Fi.
  assert (Ii : forall o, In o Fi -> In o ((Fa ++ Fi ++ Fb) ++ F2)) by (intros o Ho; rewrite !in_app_iff; tauto).
  assert (Ti : tpre h Fi x (slot L i) T).
  { constructor; auto.
    - rewrite (hload_slot _ _ _ _ _ p2). exact Hx.
    - intros o Ho. destruct (p6 _ Ho) as (? & ? & K). repeat split; auto. }
  split; [exact Ti|]. intros h' x' Fi' T' [q1 q2 q3 q4 q5 q6 q7]. exists (Fa ++ Fi' ++ Fb ++ F2).
  rewrite <- Ea at 1. rewrite upd_nth_app.
  assert (Fr : forall o, In o (Fa ++ Fb ++ F2) -> objs h' o = objs h o).
  { intros o Ho. assert (Io : In o ((Fa ++ Fi ++ Fb) ++ F2)) by (rewrite !in_app_iff in *; tauto).
    destruct (p4 _ Io) as (? & ?). apply q4; auto.
    - intro K. apply N2 in K. rewrite !in_app_iff in *. tauto.
    - intro K. apply p6 in K. tauto. }
  constructor; auto.
  - replace (Fa ++ Fi' ++ Fb ++ F2) with ((Fa ++ Fi' ++ Fb) ++ F2) by now rewrite <- !app_assoc.
    constructor; [|exact SZ]. apply parts_all_app; [|constructor; [exact q1|]].
    + apply (parts_all_frame h h'); [exact Pa|]. intros o Ho. apply Fr. rewrite in_app_iff. tauto.
    + apply (parts_all_frame h h'); [exact Pb|]. intros o Ho. apply Fr. rewrite !in_app_iff. tauto.
  - cbn [slot l_obj] in q2. rewrite q2. rewrite (hstore_slot _ _ _ _ _ _ p2) by (rewrite Hx; discriminate).
    rewrite <- Ea at 1. now rewrite upd_nth_app.
  - apply NoDup_mid; auto. intros o Ho. destruct (q6 _ Ho) as ([K|K] & K2).
    + now apply N2.
    + split; intro Z; assert (Io : In o ((Fa ++ Fi ++ Fb) ++ F2)) by (rewrite !in_app_iff in *; tauto); apply p4 in Io; lia.
  - intros o Ho. rewrite !in_app_iff in Ho.
    assert (Z : In o Fi' \/ In o (Fa ++ Fb ++ F2)) by (rewrite !in_app_iff; tauto). destruct Z as [Z|Z].
    + destruct (q6 _ Z) as ([K|K] & K2); auto.
    + assert (Io : In o ((Fa ++ Fi ++ Fb) ++ F2)) by (rewrite !in_app_iff in *; tauto).
      destruct (p4 _ Io) as (K1 & K2). split; [now left|]. lia.
  - intros o Ho. destruct (q7 _ Ho) as (K & K1 & K2). repeat split; auto. intro Z.
    assert (Z' : In o Fi' \/ In o (Fa ++ Fb ++ F2)) by (rewrite !in_app_iff in *; tauto). destruct Z' as [Z'|Z']; [auto|].
    assert (Io : In o ((Fa ++ Fi ++ Fb) ++ F2)) by (rewrite !in_app_iff in *; tauto).
    destruct K as [K|K]; [apply p6 in K; tauto|apply p4 in Io; lia].
Qed.

(** ** A new variable to which the location points *)
Definition points_to (y : mv) (o : nat) : Prop :=
  y = MPtr (Some (cell o)) \/ exists w, y = MIface (Some (w, Some (cell o))).
Lemma tpre_cell : forall h F x L T x0 y, tpre h F x L T -> (forall h1, parts h1 x0 []) ->
  tpre (hstore (fst (halloc h (OCells [x0]))) L y) [] x0 (cell (next h)) T.
Proof.
  intros h F x L T x0 y [p1 p2 p3 p4 p5 p6] O. constructor; cbn [l_obj cell].
  - apply O.
  - unfold hload, cells_of. cbn [cell l_obj]. rewrite hstore_other by lia. now rewrite halloc_new.
  - constructor.
  - intros o [].
  - rewrite hstore_next, halloc_next. lia.
  - rewrite hstore_next, halloc_next. intros o Ho. apply p6 in Ho. repeat split; try lia. intro Z; exact Z.
Qed.
Lemma one_cell : forall h o x y h', objs h o = OCells [x] -> objs h' o = objs (hstore h (cell o) y) o -> objs h' o = OCells [y].
Proof.
  intros h o x y h' H ->. rewrite (hstore_self h (cell o)); [|unfold hload, cells_of; cbn; rewrite H; discriminate].
  unfold cells_of. cbn. now rewrite H.
Qed.
Lemma tpost_cell : forall h F x L T x0 y h' x' F' T', tpre h F x L T -> (forall h1, parts h1 x0 []) ->
  points_to y (next h) ->
  tpost (hstore (fst (halloc h (OCells [x0]))) L y) [] (cell (next h)) T h' x' F' T' ->
  tpost h F L T h' y (next h :: F') T'.
Proof.
  intros h F x L T x0 y h' x' F' T' P O Py Q.
  destruct P as [p1 p2 p3 p4 p5 p6], Q as [q1 q2 q3 q4 q5 q6 q7].
  rewrite hstore_next, halloc_next in *. cbn [l_obj cell] in *.
  assert (C : objs h' (next h) = OCells [x']).
  { eapply one_cell; [|exact q2]. rewrite hstore_other by lia. apply halloc_new. }
  assert (NI : ~ In (next h) F') by (intro K; destruct (q6 _ K) as ([[]|K1] & _); lia).
  constructor.
  - destruct Py as [->|[w ->]]; econstructor; eauto.
  - rewrite q4; [|lia|lia|intro Z; exact Z|intro K; apply p6 in K; tauto].
    apply hstore_ext. apply halloc_old. tauto.
  - lia.
  - intros o Lo Do Wo To. rewrite q4; [|lia|lia|intro Z; exact Z|exact To]. rewrite hstore_other by exact Do.
    now apply halloc_old.
  - now constructor.
  - intros o [<-|Ho]; [split; [right; lia|lia]|]. destruct (q6 _ Ho) as ([[]|K] & K2). split; [right; lia|exact K2].
  - intros o Ho. destruct (q7 _ Ho) as (K & K1 & K2). repeat split; auto.
    + destruct K as [K|K]; [tauto|right; lia].
    + intros [<-|Z]; [|auto]. destruct K as [K|K]; [apply p6 in K; lia|lia].
Qed.

(** ** A new element of a list *)
Section Elem.
Variables (h : mem) (F : list nat) (x : mv) (L : loc) (T : list nat).
Hypothesis P : tpre h F x L T.
Variables (h1 : mem) (s : slice) (xs ys : list mv) (y0 : mv) (Fx Fe Fs : list nat).
Hypothesis HA : allocs h h1.
Hypothesis HC : has_cells h1 s xs (y0 :: ys).
Hypothesis HX : parts_all h1 xs Fx.
Hypothesis HY : parts h1 y0 Fe.
Hypothesis HS : parts_all h1 ys Fs.
Hypothesis HN : NoDup ((s_arr s :: Fx) ++ Fe ++ Fs).
Hypothesis HW : forall o, In o ((s_arr s :: Fx) ++ Fe ++ Fs) -> (In o F \/ next h <= o) /\ o < next h1.
Let h2 := hstore h1 L (MSlice (longer s)).

Lemma telem_L : forall o, In o ((s_arr s :: Fx) ++ Fe ++ Fs) -> o <> l_obj L /\ ~ In o T.
Proof.
  intros o Ho. destruct (HW _ Ho) as ([K|K] & K1); destruct P.
  - destruct (t_F0 _ K) as (? & ?). repeat split; auto. intro Z. apply t_T0 in Z. tauto.
  - split; [lia|]. intro Z. apply t_T0 in Z. lia.
Qed.
Lemma telem_obj : objs h2 (s_arr s) = objs h1 (s_arr s).
Proof. apply hstore_other. apply telem_L. now left. Qed.

Lemma tpre_elem : tpre h2 Fe y0 (elem s (s_len s)) T.
Proof.
  pose proof P as P0. destruct P as [p1 p2 p3 p4 p5 p6]. destruct HA as [N Fr].
  pose proof HC as (q1 & q2 & Hc & Hq1 & Hx & Hy). destruct (NoDup_app3 _ _ _ HN) as (N1 & N2 & N3).
  assert (Ie : forall o, In o Fe -> In o ((s_arr s :: Fx) ++ Fe ++ Fs)) by (intros o Ho; rewrite !in_app_iff; tauto).
  unfold h2. constructor; rewrite ?hstore_next; cbn [elem l_obj].
  - apply (parts_frame h1 _); auto. intros o Ho. apply hstore_other. now apply telem_L, Ie.
  - unfold hload, cells_of. cbn [elem l_obj l_idx l_path get_path]. fold h2. rewrite telem_obj.
    unfold cells_of in Hc. rewrite Hc.
    replace (s_off s + s_len s) with (length (q1 ++ xs)) by (rewrite app_length; lia).
    replace (q1 ++ xs ++ (y0 :: ys) ++ q2) with ((q1 ++ xs) ++ y0 :: (ys ++ q2)) by now rewrite <- app_assoc.
    now rewrite nth_error_mid.
  - exact N1.
  - intros o Ho. destruct (HW _ (Ie _ Ho)) as (K & K1). split; [exact K1|]. intros ->. apply N2 in Ho as [K2 _]. apply K2. now left.
  - apply HW. now left.
  - intros o Ho. destruct (p6 _ Ho) as (K1 & K2 & K3). repeat split; auto; [lia| |].
    + intros ->. destruct (telem_L (s_arr s)) as (_ & Z); [now left|auto].
    + intro Z. destruct (telem_L o) as (_ & Z'); [now apply Ie|auto].
Qed.

Lemma tpost_elem : forall h' x' F' T', tpost h2 Fe (elem s (s_len s)) T h' x' F' T' ->
  tpost h F L T h' (MSlice (longer s)) ((s_arr s :: Fx) ++ F' ++ Fs) T'.
Proof.
  intros h' x' F' T' Q. pose proof tpre_elem as Pe.
  pose proof (tpre_load _ _ _ _ _ Pe) as Le. pose proof (tpre_load _ _ _ _ _ P) as LL.
  destruct Q as [q1 q2 q3 q4 q5 q6 q7]. cbn [elem l_obj] in *.
  pose proof P as P0. destruct P as [p1 p2 p3 p4 p5 p6]. destruct HA as [N Fr].
  pose proof HC as (c1 & c2 & Hc & Hc1 & Hx & Hy). destruct (NoDup_app3 _ _ _ HN) as (N1 & N2 & N3).
  assert (Cs : cells_of h' (s_arr s) = c1 ++ (xs ++ [x']) ++ ys ++ c2).
  { unfold cells_of. rewrite q2, hstore_self by exact Le. cbn [elem l_obj l_idx l_path put_path].
    assert (Ec : cells_of h2 (s_arr s) = (c1 ++ xs) ++ y0 :: (ys ++ c2)).
    { unfold cells_of in *. rewrite telem_obj, Hc. now rewrite <- app_assoc. }
    rewrite Ec. replace (s_off s + s_len s) with (length (c1 ++ xs)) by (rewrite app_length; lia).
    rewrite nth_error_mid, upd_nth_app. now rewrite <- !app_assoc. }
  assert (Ins : forall o, In o (s_arr s :: Fx ++ Fs) -> In o ((s_arr s :: Fx) ++ Fe ++ Fs)).
  { intros o Ho. cbn in *. rewrite !in_app_iff in *. tauto. }
  assert (Ie : forall o, In o Fe -> In o ((s_arr s :: Fx) ++ Fe ++ Fs)) by (intros o Ho; rewrite !in_app_iff; tauto).
  unfold h2 in *. rewrite hstore_next in *.
  assert (Fo : forall o, In o (Fx ++ Fs) -> objs h' o = objs h1 o).
  { intros o Ho. assert (Io : In o ((s_arr s :: Fx) ++ Fe ++ Fs)) by (apply Ins; now right).
    destruct (HW _ Io) as (_ & K1). destruct (telem_L _ Io) as (K2 & K4).
    rewrite q4; [now apply hstore_other|exact K1| | |exact K4].
    - intros ->. cbn in N3. inversion N3; subst. auto.
    - intro Z. apply N2 in Z. cbn in Z. rewrite !in_app_iff in *. tauto. }
  constructor.
  - cbn [app]. change (s_arr s) with (s_arr (longer s)). eapply parts_slice with (xs := xs ++ [x']) (ys := ys).
    + cbn in *. lia.
    + exists c1, c2. cbn [longer s_arr s_off s_len s_cap]. rewrite app_length. cbn [length] in *. repeat split; [exact Cs|lia|lia|lia].
    + rewrite <- app_assoc. cbn [app]. apply parts_all_app; [|constructor; [exact q1|]].
      * apply (parts_all_frame h1 h'); [exact HX|]. intros o Ho. apply Fo, in_or_app. now left.
      * apply (parts_all_frame h1 h'); [exact HS|]. intros o Ho. apply Fo, in_or_app. now right.
  - rewrite q4; [apply hstore_ext; apply Fr; tauto|lia| | |].
    + intro Z. destruct (telem_L (s_arr s)) as (K & _); [now left|auto].
    + intro Z. destruct (telem_L (l_obj L)) as (K & _); [now apply Ie|auto].
    + intro K. apply p6 in K. tauto.
  - lia.
  - intros o Lo Do Wo To. rewrite q4; [|lia| | |exact To].
    + rewrite hstore_other by exact Do. apply Fr. lia.
    + intros ->. destruct (HW (s_arr s)) as ([K|K] & _); [now left|auto|lia].
    + intro K. destruct (HW o) as ([Z|Z] & _); [now apply Ie|auto|lia].
  - apply NoDup_mid; auto. intros o Ho. destruct (q6 _ Ho) as ([K|K] & _); [now apply N2|].
    split; intro Z; (assert (Io : In o ((s_arr s :: Fx) ++ Fe ++ Fs)) by (rewrite !in_app_iff; tauto)); apply HW in Io; lia.
  - intros o Ho. assert (Z : In o F' \/ In o ((s_arr s :: Fx) ++ Fe ++ Fs)) by (rewrite !in_app_iff in *; tauto).
    destruct Z as [Z|Z].
    + destruct (q6 _ Z) as ([K|K] & K2); (split; [|exact K2]); [|right; lia].
      destruct (HW o) as (? & _); [now apply Ie|auto].
    + destruct (HW _ Z) as (K & K1). split; [exact K|lia].
  - intros o Ho. destruct (q7 _ Ho) as (K & K1 & K2). split; [destruct K as [K|K]; [now left|right; lia]|]. split; [exact K1|].
    intro Z. assert (Z' : In o F' \/ In o ((s_arr s :: Fx) ++ Fe ++ Fs)) by (rewrite !in_app_iff in *; tauto).
    destruct Z' as [Z'|Z']; [auto|]. destruct K as [K|K].
    + destruct (telem_L _ Z') as (_ & K3). auto.
    + apply HW in Z'. lia.
Qed.
End Elem.

(** ** Map entries *)
Definition cnt (o : nat) (l : list nat) : nat := count_occ Nat.eq_dec l o.
Lemma cnt_app : forall o a b, cnt o (a ++ b) = cnt o a + cnt o b.
Proof. intros. apply count_occ_app. Qed.
Lemma in_cnt : forall o l, In o l <-> 0 < cnt o l.
Proof. intros. apply (count_occ_In Nat.eq_dec). Qed.
Lemma nodup_cnt : forall l, NoDup l <-> forall o, cnt o l <= 1.
Proof. intros. apply (NoDup_count_occ Nat.eq_dec). Qed.

Lemma nodup_l : forall a b : list nat, NoDup (a ++ b) -> NoDup a.
Proof. intros a b H. apply nodup_cnt. intro o. apply nodup_cnt with (o := o) in H. rewrite cnt_app in H. lia. Qed.

Lemma hmap_set_parts : forall h k x Fk Fx, parts h k Fk -> parts h x Fx -> forall ents F, parts_entries h ents F ->
  exists F', parts_entries h (hmap_set h ents k x) F' /\ forall o, cnt o F' <= cnt o F + cnt o Fk + cnt o Fx.
Proof.
  intros h k x Fk Fx Hk Hx ents F H. induction H as [|k' x' r F1 F2 F3 H1 H2 H3 IH]; cbn [hmap_set].
  - exists (Fk ++ Fx ++ []). split; [constructor; auto; constructor|]. intro o. rewrite !cnt_app. cbn. lia.
  - destruct (hkey_eqb h k' k).
    + exists (F1 ++ Fx ++ F3). split; [now constructor|]. intro o. rewrite !cnt_app. lia.
    + destruct IH as (F' & K1 & K2). exists (F1 ++ F2 ++ F'). split; [now constructor|].
      intro o. specialize (K2 o). rewrite !cnt_app. lia.
Qed.
Lemma tpost_mapmake : forall h F x L T, tpre h F x L T ->
  tpost h F L T (hstore (fst (halloc h (OMap []))) L (MMap (Some (next h)))) (MMap (Some (next h))) [next h] T.
Proof.
  intros h F x L T P. eapply tpost_new; [exact P|apply allocs_halloc| | |].
  - eapply parts_map; [apply halloc_new|constructor].
  - constructor; [intro Z; exact Z|constructor].
  - intros o [<-|[]]. rewrite halloc_next. lia.
Qed.
(** The key and the value come from elsewhere: from memory that is not in the tree *)
Lemma tpost_mapset : forall h F o L T k x Fk Fx, tpre h F (MMap (Some o)) L T -> parts h k Fk -> parts h x Fx ->
  NoDup (Fk ++ Fx) -> (forall z, In z (Fk ++ Fx) -> ~ In z F /\ z <> l_obj L /\ ~ In z T /\ z < next h) ->
  forall h0, next h0 <= next h -> (forall z, In z (Fk ++ Fx) -> next h0 <= z) -> tpost h0 F L T h (MMap (Some o)) F T ->
  exists F', tpost h0 F L T (set_obj h o (OMap (hmap_set h (map_of h o) k x))) (MMap (Some o)) F' T.
Proof.
  intros h F o L T k x Fk Fx P Hk Hx ND D h0 N0 Nw Q. pose proof P as P0. destruct P as [p1 p2 p3 p4 p5 p6].
  inversion p1 as [| | | | | | | | |o' ents G HO PE| | | |]; subst. unfold map_of. rewrite HO.
  destruct (hmap_set_parts _ _ _ _ _ Hk Hx _ _ PE) as (F' & PE' & C).
  set (h' := set_obj h o (OMap (hmap_set h ents k x))).
  destruct (p4 o) as (Lo & Do); [now left|].
  assert (NG : ~ In o G) by (inversion p3; auto).
  assert (IF : forall z, In z F' -> In z G \/ In z (Fk ++ Fx)).
  { intros z Hz. apply in_cnt in Hz. specialize (C z). rewrite !in_cnt, cnt_app. lia. }
  assert (NF : ~ In o F').
  { intro K. apply IF in K as [K|K]; [auto|]. apply D in K as (K & _). apply K. now left. }
  destruct Q as [q1 q2 q3 q4 q5 q6 q7].
  exists (o :: F'). constructor.
  - eapply parts_map; [apply set_obj_same|]. apply (parts_entries_frame h h'); [exact PE'|].
    intros z Hz. apply set_obj_other. intros ->. auto.
  - unfold h'. rewrite set_obj_other by (intro Z; apply Do; now symmetry). exact q2.
  - exact q3.
  - intros z Lz Dz Fz Tz. unfold h'. rewrite set_obj_other by (intros ->; apply Fz; now left). now apply q4.
  - constructor; [exact NF|]. apply nodup_cnt. intro z. specialize (C z). 
    assert (C1 : cnt z G <= 1) by (inversion p3; subst; now apply nodup_cnt).
    assert (C2 : cnt z (Fk ++ Fx) <= 1) by now apply nodup_cnt. rewrite cnt_app in C2.
    destruct (Nat.eq_dec (cnt z G) 0); [lia|]. destruct (Nat.eq_dec (cnt z Fk + cnt z Fx) 0); [lia|].
    exfalso. destruct (D z) as (K & _); [apply in_cnt; rewrite cnt_app; lia|]. apply K. right. apply in_cnt. lia.
  - cbn [h' set_obj next]. intros z [<-|Hz]; [split; [left; now left|exact Lo]|].
    apply IF in Hz as [Hz|Hz]; [split; [left; now right|apply p4; now right]|].
    split; [right; now apply Nw|]. now apply D in Hz as (_ & _ & _ & ?).
  - cbn [h' set_obj next]. intros z Hz. destruct (q7 _ Hz) as (K & K1 & K2). split; [exact K|]. split; [exact K1|].
    intros [<-|Z]; [apply K2; now left|]. apply IF in Z as [Z|Z]; [apply K2; now right|].
    apply D in Z as (_ & _ & Z & _). auto.
Qed.
