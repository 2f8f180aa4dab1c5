(** Property theorems about the shape of a decoded message in memory (C73).  HDecoder.v is the
    decoder with every allocation, load and store.  Specification: TreeSpec.v. *)
From Coq Require Import Lia Init.Byte.
From Verif Require Import Base Value Desc Decoder MsgSpec Encoder DecFacts Sample SampleDec HMem HDecoder OwnSpec HeapDecSpec OwnMem OwnPost
  TreeSpec TreeMem TreePost TreeDec Props_HeapDec.
Open Scope nat_scope.

(** ** C73.  Unmarshal into a message that is a tree leaves a tree, with or without an error, for
    every input, every content of the pooled temporaries and every choice of capacities by append:
    no two parts of the message share memory.  It consists of memory it had and of new memory, and
    nothing else has been written. *)
Theorem C73_tree : forall E, wf_env E -> forall capf HP h L F b id h', tree_at h L F ->
  returned h' (HUnmarshal E capf HP h b id L) ->
  exists F', tree_at h' L F' /\ (forall o, In o F' -> In o F \/ next h <= o) /\
    (forall o, o < next h -> ~ In o (l_obj L :: F) -> objs h' o = objs h o).
Proof.
  intros E WF capf HP h L F b id h' (TL & TN & TF & x & Ld & PX) R.
  assert (P : tpre h F x L []) by (constructor; auto; intros o []).
  pose proof (struct_keeps E WF capf (S (s_len b)) [] HP h F x L b id (Z.of_nat defaultRecursionMaxDepth) P) as K.
  change (HDecodeStruct E capf (S (s_len b)) [] HP h id (Z.of_nat defaultRecursionMaxDepth) b L) with (HUnmarshal E capf HP h b id L) in K.
  revert R K. generalize (HUnmarshal E capf HP h b id L). intros r R K.
  assert (exists x' F', tpost h F L [] h' x' F' []) as (x' & F' & Q).
  { destruct R as [|e]; cbn [keeps] in K.
    - destruct K as (x' & F' & T' & -> & Q). eauto.
    - destruct K as (x' & F' & Q). eauto. }
  pose proof (tpre_post _ _ _ _ _ _ _ _ _ P Q) as P'. exists F'. split; [|split].
  - destruct P' as [p1 p2 p3 p4 p5 p6]. split; [exact p5|]. split; [exact p3|]. split; [exact p4|]. eauto.
  - intros o Ho. now apply (u_F _ _ _ _ _ _ _ _ Q) in Ho as [? _].
  - intros o Lo Do. apply (u_frame _ _ _ _ _ _ _ _ Q); auto; [intros ->; apply Do; now left|intro Z; apply Do; now right].
Qed.
Print Assumptions C73_tree.

Lemma HUnmarshal_next : forall E, wf_env E -> forall capf HP h L F b id h', tree_at h L F ->
  returned h' (HUnmarshal E capf HP h b id L) -> next h <= next h'.
Proof.
  intros E WF capf HP h L F b id h' (TL & TN & TF & x & Ld & PX) R.
  assert (P : tpre h F x L []) by (constructor; auto; intros o []).
  pose proof (struct_keeps E WF capf (S (s_len b)) [] HP h F x L b id (Z.of_nat defaultRecursionMaxDepth) P) as K.
  change (HDecodeStruct E capf (S (s_len b)) [] HP h id (Z.of_nat defaultRecursionMaxDepth) b L) with (HUnmarshal E capf HP h b id L) in K.
  revert R K. generalize (HUnmarshal E capf HP h b id L). intros r R K.
  destruct R as [|e]; cbn [keeps] in K.
  - destruct K as (x' & F' & T' & _ & Q). exact (u_next _ _ _ _ _ _ _ _ Q).
  - destruct K as (x' & F' & Q). exact (u_next _ _ _ _ _ _ _ _ Q).
Qed.

(** A new message is a tree. *)
Theorem C73_new : forall E, wf_env E -> forall h id, tree_at (fst (hnew E h id)) (snd (hnew E h id)) [].
Proof.
  intros E WF h id. unfold hnew. rewrite halloc_eq. cbn [fst snd]. split; [rewrite halloc_next; cbn; lia|].
  split; [constructor|]. split; [intros o []|]. exists (embed (sd_zero (E id))). split.
  - unfold hload, cells_of. cbn [cell l_obj]. now rewrite halloc_new.
  - now apply (zero_parts E WF _ (TStruct id)).
Qed.
Print Assumptions C73_new.

(** ** What it means for a user *)
Lemma cell_load : forall h o x y, objs h o = OCells [x] -> hload h (cell o) = Some y -> y = x.
Proof. intros h o x y H L. unfold hload, cells_of in L. cbn in L. rewrite H in L. cbn in L. congruence. Qed.
Lemma has_cells_fun : forall h s xs ys xs' ys', has_cells h s xs ys -> has_cells h s xs' ys' -> xs = xs' /\ ys = ys'.
Proof.
  intros h s xs ys xs' ys' (p & q & E1 & E2 & E3 & E4) (p' & q' & E1' & E2' & E3' & E4').
  rewrite E1 in E1'. destruct (app_inj_len _ _ _ _ (eq_trans E2 (eq_sym E2')) E1') as [_ E5].
  destruct (app_inj_len _ _ _ _ (eq_trans E3 (eq_sym E3')) E5) as [-> E6].
  assert (El : length ys = length ys') by lia. destruct (app_inj_len _ _ _ _ El E6) as [-> _]. auto.
Qed.
(** The objects behind a content are determined. *)
Lemma parts_fun_all : forall h,
  (forall x F, parts h x F -> forall F', parts h x F' -> F' = F) /\
  (forall xs F, parts_all h xs F -> forall F', parts_all h xs F' -> F' = F) /\
  (forall xs F, parts_entries h xs F -> forall F', parts_entries h xs F' -> F' = F).
Proof.
  intro h. apply parts_mutind.
  - intros F' P. now inversion P.
  - intros n F' P. now inversion P.
  - intros s F' P. now inversion P.
  - intros s _ F' P. now inversion P.
  - intros F' P. now inversion P.
  - intros o x F HO _ IH F' P. inversion P as [| | | | |o' y G HO' PY| | | | | | | |]; subst.
    assert (y = x) as -> by congruence. f_equal. auto.
  - intros s E1 E2 F' P. inversion P; subst; [reflexivity|lia].
  - intros s xs ys F C HC _ IH F' P. inversion P as [| | | | | | |s0 xs0 ys0 G C0 HC0 PA| | | | | |]; subst; [lia|].
    destruct (has_cells_fun _ _ _ _ _ _ HC HC0) as [-> ->]. f_equal. auto.
  - intros F' P. now inversion P.
  - intros o ents F HO _ IH F' P. inversion P as [| | | | | | | | |o' ents' G HO' PE| | | |]; subst.
    assert (ents' = ents) as -> by congruence. f_equal. auto.
  - intros xs u F _ IH _ F' P. inversion P; subst. f_equal. auto.
  - intros F' P. now inversion P.
  - intros w F' P. now inversion P.
  - intros w o x F HO _ IH F' P. inversion P as [| | | | | | | | | | | | |w' o' y G HO' PY]; subst.
    assert (y = x) as -> by congruence. f_equal. auto.
  - intros F' P. now inversion P.
  - intros x xs F1 F2 _ IH1 _ IH2 F' P. inversion P; subst. f_equal; auto.
  - intros F' P. now inversion P.
  - intros k x r F1 F2 F3 _ IH1 _ IH2 _ IH3 F' P. inversion P; subst. f_equal; [auto|]. f_equal; auto.
Qed.

Lemma all_nth : forall h l F i x, parts_all h l F -> nth_error l i = Some x ->
  exists Fi, parts h x Fi /\ forall o, cnt o Fi <= cnt o F.
Proof.
  intros h l F i x P E. destruct (parts_all_nth _ _ _ _ _ P E) as (xa & xb & Fa & Fi & Fb & _ & _ & -> & Pi & _ & _).
  exists Fi. split; [exact Pi|]. intro o. rewrite !cnt_app. lia.
Qed.
Lemma all_nth2 : forall h l F, parts_all h l F -> forall i j x y, i <> j -> nth_error l i = Some x -> nth_error l j = Some y ->
  exists Fi Fj, parts h x Fi /\ parts h y Fj /\ forall o, cnt o Fi + cnt o Fj <= cnt o F.
Proof.
  intros h l F P. induction P as [|z zs F1 F2 P1 P2 IH]; intros i j x y D Hi Hj; [now destruct i|].
  destruct i as [|i], j as [|j]; cbn in Hi, Hj.
  - congruence.
  - injection Hi as ->. destruct (all_nth _ _ _ _ _ P2 Hj) as (Fj & Pj & C). exists F1, Fj. repeat split; auto.
    intro o. specialize (C o). rewrite cnt_app. lia.
  - injection Hj as ->. destruct (all_nth _ _ _ _ _ P2 Hi) as (Fi & Pi & C). exists Fi, F1. repeat split; auto.
    intro o. specialize (C o). rewrite cnt_app. lia.
  - destruct (IH i j x y ltac:(congruence) Hi Hj) as (Fi & Fj & Pi & Pj & C). exists Fi, Fj. repeat split; auto.
    intro o. specialize (C o). rewrite cnt_app. lia.
Qed.
Fixpoint flat (m : list (mv * mv)) : list mv := match m with [] => [] | (k, x) :: r => k :: x :: flat r end.
Lemma flat_parts : forall h m F, parts_entries h m F -> parts_all h (flat m) F.
Proof. intros h m F P. induction P; cbn; [constructor|]. constructor; [assumption|]. now constructor. Qed.
Lemma flat_key : forall m i, option_map fst (nth_error m i) = nth_error (flat m) (2 * i).
Proof. induction m as [|[k x] m IH]; intros [|i]; try reflexivity. replace (2 * S i) with (S (S (2 * i))) by lia. cbn [nth_error flat]. apply IH. Qed.
Lemma flat_val : forall m i, option_map snd (nth_error m i) = nth_error (flat m) (S (2 * i)).
Proof. induction m as [|[k x] m IH]; intros [|i]; try reflexivity. replace (S (2 * S i)) with (S (S (S (2 * i)))) by lia. cbn [nth_error flat]. apply IH. Qed.

(** A content is a list of parts, or refers to one *)
Definition pos (st : step) : nat := match st with SField i | SElem i => i | SKey i => 2 * i | SVal i => S (2 * i) | STarget => 0 end.
Lemma part_list : forall h x F, parts h x F ->
  exists l F', (forall st y, part h x st = Some y -> nth_error l (pos st) = Some y) /\
    (forall st st' y y', part h x st = Some y -> part h x st' = Some y' -> st <> st' -> pos st <> pos st') /\
    parts_all h l F' /\ forall o, cnt o F' <= cnt o F.
Proof.
  intros h x F P. 
  assert (NIL : (forall st y, part h x st = Some y -> False) ->
    exists l F', (forall st y, part h x st = Some y -> nth_error l (pos st) = Some y) /\
    (forall st st' y y', part h x st = Some y -> part h x st' = Some y' -> st <> st' -> pos st <> pos st') /\
    parts_all h l F' /\ forall o, cnt o F' <= cnt o F).
  { intro N. exists [], []. split; [intros st y H; now apply N in H|]. split; [intros st st' y y' H; now apply N in H|].
    split; [constructor|]. intro. cbn. lia. }
  destruct P as [|n|s|s SZ| |o x F HO PX|s E1 E2|s xs ys F C HC PA| |o ents F HO PE|xs u F PA SZ| |w|w o x F HO PX];
    try (apply NIL; intros st y H; cbn in H; destruct st; discriminate H).
  - exists [x], (F ++ []). split; [|split; [|split]].
    + intros st y H. destruct st; try discriminate H. cbn [part] in H. apply (cell_load _ _ _ _ HO) in H as ->. reflexivity.
    + intros st st' y y' H H' D. destruct st, st'; try discriminate H; try discriminate H'. congruence.
    + constructor; [exact PX|constructor].
    + intro z. rewrite app_nil_r. cbn. unfold cnt. destruct (Nat.eq_dec o z); lia.
  - apply NIL. intros st y H. cbn in H. destruct st; try discriminate H. rewrite E2 in H. cbn in H. discriminate H.
  - exists (xs ++ ys), F. split; [|split; [|split]].
    + intros st y H. destruct st; try discriminate H. cbn [part] in H. destruct (Nat.ltb_spec i (s_cap s)); [|discriminate].
      destruct HC as (p & q & Hc & E1 & E2 & E3). rewrite Hc in H. cbn [pos].
      rewrite nth_error_app2 in H by lia. replace (s_off s + i - length p) with i in H by lia.
      rewrite app_assoc in H. rewrite nth_error_app1 in H by (rewrite app_length; lia). exact H.
    + intros st st' y y' H H' D. destruct st, st'; try discriminate H; try discriminate H'. cbn. congruence.
    + exact PA.
    + intro z. cbn. unfold cnt. destruct (Nat.eq_dec (s_arr s) z); lia.
  - exists (flat ents), F. assert (M : map_of h o = ents) by (unfold map_of; now rewrite HO). split; [|split; [|split]].
    + intros st y H. destruct st; try discriminate H; cbn [part] in H; rewrite M in H; cbn [pos]; [now rewrite flat_key in H|now rewrite flat_val in H].
    + intros st st' y y' H H' D. destruct st, st'; try discriminate H; try discriminate H'; cbn [pos]; try lia; intro Z; apply D; f_equal; lia.
    + now apply flat_parts.
    + intro z. cbn. unfold cnt. destruct (Nat.eq_dec o z); lia.
  - exists xs, F. split; [|split; [|split]].
    + intros st y H. destruct st; try discriminate H. exact H.
    + intros st st' y y' H H' D. destruct st, st'; try discriminate H; try discriminate H'. cbn. congruence.
    + exact PA.
    + intro z. rewrite cnt_app. lia.
  - exists [x], (F ++ []). split; [|split; [|split]].
    + intros st y H. destruct st; try discriminate H. cbn [part] in H. apply (cell_load _ _ _ _ HO) in H as ->. reflexivity.
    + intros st st' y y' H H' D. destruct st, st'; try discriminate H; try discriminate H'. congruence.
    + constructor; [exact PX|constructor].
    + intro z. rewrite app_nil_r. cbn. unfold cnt. destruct (Nat.eq_dec o z); lia.
Qed.
Lemma part_at_parts : forall h p x F y, parts h x F -> part_at h x p = Some y ->
  exists Fy, parts h y Fy /\ forall o, cnt o Fy <= cnt o F.
Proof.
  intros h p. induction p as [|st p IH]; intros x F y P H; cbn in H.
  - injection H as ->. exists F. auto.
  - destruct (part h x st) as [z|] eqn:Ez; [|discriminate]. destruct (part_list _ _ _ P) as (l & F' & N & _ & PA & C).
    destruct (all_nth _ _ _ _ _ PA (N _ _ Ez)) as (Fz & Pz & Cz). destruct (IH _ _ _ Pz H) as (Fy & Py & Cy).
    exists Fy. split; [exact Py|]. intro o. specialize (C o). specialize (Cz o). specialize (Cy o). lia.
Qed.
Lemma fork_parts : forall h p q x F y z, parts h x F -> part_at h x p = Some y -> part_at h x q = Some z -> fork p q ->
  exists Fy Fz, parts h y Fy /\ parts h z Fz /\ forall o, cnt o Fy + cnt o Fz <= cnt o F.
Proof.
  intros h p. induction p as [|a p IH]; intros [|b q] x F y z P Hy Hz FK; cbn [fork] in FK; try contradiction.
  cbn [part_at] in Hy, Hz. destruct (part h x a) as [ya|] eqn:Ea; [|discriminate]. destruct (part h x b) as [zb|] eqn:Eb; [|discriminate].
  destruct (part_list _ _ _ P) as (l & F' & N & D & PA & C). destruct FK as [NE|[-> FK]].
  - destruct (all_nth2 _ _ _ PA _ _ _ _ (D _ _ _ _ Ea Eb NE) (N _ _ Ea) (N _ _ Eb)) as (Fa & Fb & Pa & Pb & Cab).
    destruct (part_at_parts _ _ _ _ _ Pa Hy) as (Fy & Py & Cy). destruct (part_at_parts _ _ _ _ _ Pb Hz) as (Fz & Pz & Cz).
    exists Fy, Fz. repeat split; auto. intro o. specialize (C o). specialize (Cab o). specialize (Cy o). specialize (Cz o). lia.
  - rewrite Ea in Eb. injection Eb as <-. destruct (all_nth _ _ _ _ _ PA (N _ _ Ea)) as (Fa & Pa & Ca).
    destruct (IH q _ _ _ _ Pa Hy Hz FK) as (Fy & Fz & Py & Pz & Cyz). exists Fy, Fz. repeat split; auto.
    intro o. specialize (C o). specialize (Ca o). specialize (Cyz o). lia.
Qed.

(** In a tree, two parts neither of which contains the other have no object in common: two
    fields, two list elements, the spare capacity of a list and its elements, two map values, and
    anything inside them. *)
Theorem C73_apart : forall h L F x p q y z, tree_at h L F -> hload h L = Some x ->
  part_at h x p = Some y -> part_at h x q = Some z -> fork p q ->
  exists Fy Fz, parts h y Fy /\ parts h z Fz /\ forall o, In o Fy -> ~ In o Fz.
Proof.
  intros h L F x p q y z (TL & TN & TF & x' & Ld & PX) Ld' Hy Hz FK. assert (x' = x) as -> by congruence.
  destruct (fork_parts _ _ _ _ _ _ _ PX Hy Hz FK) as (Fy & Fz & Py & Pz & C). exists Fy, Fz. repeat split; auto.
  intros o I1 I2. apply in_cnt in I1, I2. specialize (C o). apply nodup_cnt with (o := o) in TN. lia.
Qed.
Print Assumptions C73_apart.

(** So whatever is done to the memory behind one of them (its elements overwritten, appended to in
    the spare capacity, entries added to its map, a message behind it changed) leaves the value
    of the other as it is. *)
Theorem C73_independent : forall h L F x p q y z, tree_at h L F -> hload h L = Some x ->
  part_at h x p = Some y -> part_at h x q = Some z -> fork p q ->
  exists Fy, parts h y Fy /\ forall h', (forall o, ~ In o Fy -> objs h' o = objs h o) ->
    forall A v, reads h A z v -> reads h' (fun _ => True) z v.
Proof.
  intros h L F x p q y z T Ld Hy Hz FK. destruct (C73_apart _ _ _ _ _ _ _ _ T Ld Hy Hz FK) as (Fy & Fz & Py & Pz & D).
  exists Fy. split; [exact Py|]. intros h' H A v R. apply (proj1 (reads_parts_all h A h') _ _ R _ Pz).
  intros o Ho. apply H. intro Z. now apply D in Z.
Qed.
Print Assumptions C73_independent.

(** The objects are determined by the content, so "behind" has one meaning. *)
Theorem C73_determined : forall h x F F', parts h x F -> parts h x F' -> F = F'.
Proof. intros h x F F' P P'. exact (proj1 (parts_fun_all h) _ _ P' _ P). Qed.
Print Assumptions C73_determined.

(** Two messages that share nothing: decoding into one of them leaves the other one's tree as it
    was, and they still share nothing. *)
Theorem C73_two : forall E, wf_env E -> forall capf HP h L F M G b id h', tree_at h L F -> tree_at h M G ->
  (forall o, In o (l_obj L :: F) -> ~ In o (l_obj M :: G)) ->
  returned h' (HUnmarshal E capf HP h b id L) ->
  hload h' M = hload h M /\ tree_at h' M G /\
  exists F', tree_at h' L F' /\ forall o, In o (l_obj L :: F') -> ~ In o (l_obj M :: G).
Proof.
  intros E WF capf HP h L F M G b id h' TL TM D R. destruct (C73_tree E WF _ _ _ _ _ _ _ _ TL R) as (F' & T' & HF & Fr).
  destruct TM as (M1 & M2 & M3 & y & My & PY).
  assert (AL : forall o, In o (l_obj M :: G) -> o < next h /\ objs h' o = objs h o).
  { intros o Ho. assert (Lo : o < next h) by (destruct Ho as [<-|Ho]; [exact M1|now apply M3]).
    split; [exact Lo|]. apply Fr; [exact Lo|]. intro Z. now apply D in Z. }
  assert (NX : l_obj M < next h').
  { pose proof (HUnmarshal_next E WF capf HP h L F b id h' TL R). lia. }
  assert (Ld : hload h' M = hload h M).
  { unfold hload, cells_of. rewrite (proj2 (AL (l_obj M) (or_introl eq_refl))). reflexivity. }
  split; [exact Ld|]. split.
  - split; [exact NX|]. split; [exact M2|]. split.
    + intros o Ho. destruct (M3 o Ho). split; [|assumption]. pose proof (HUnmarshal_next E WF capf HP h L F b id h' TL R). lia.
    + exists y. split; [congruence|]. apply (proj1 (parts_frame_all h h') _ _ PY). intros o Ho. apply AL. now right.
  - exists F'. split; [exact T'|]. intros o Ho Hm. destruct Ho as [<-|Ho].
    + now apply (D (l_obj L)); [left|].
    + destruct (HF o Ho) as [K|K]; [now apply (D o); [right|]|]. apply AL in Hm as [? _]. lia.
Qed.
Print Assumptions C73_two.

(** Two list elements, a map value and a oneof, decoded into a new message from an array that the
    list's elements are then no part of. *)
Definition tree_input : bytes := [x2a; x02; x08; x01; x2a; x02; x08; x02; x32; x07; x0a; x01; x61; x12; x02; x08; x05; x42; x01; x21].
Definition tree_mem : mem := mkMem 1 (fun o => match o with 0 => OBytes tree_input | _ => OCells [] end).
Definition tree_run : hres unit :=
  HUnmarshal sample (fun n => S n) (fun _ _ => (MUninit, MUninit)) (fst (hnew sample tree_mem 0)) (mkSl 0 0 20 20) 0 (snd (hnew sample tree_mem 0)).
Definition tree_get (p : list step) : option mv :=
  match tree_run with HOk h _ => match hload h (snd (hnew sample tree_mem 0)) with Some x => part_at h x p | None => None end | _ => None end.
Example C73_ex :
  (exists h' F', tree_run = HOk h' tt /\ tree_at h' (snd (hnew sample tree_mem 0)) F' /\ ~ In 0 F') /\
  tree_get [SField 4; SElem 0; STarget; SField 0] = Some (MNum 1) /\
  tree_get [SField 4; SElem 1; STarget; SField 0] = Some (MNum 2) /\
  tree_get [SField 5; SVal 0; STarget; SField 0] = Some (MNum 5) /\
  (exists s, tree_get [SField 6; STarget] = Some (MStr s)) /\
  fork [SField 4; SElem 0] [SField 4; SElem 1] /\ fork [SField 4] [SField 5; SVal 0].
Proof.
  split.
  - assert (Q : exists h', tree_run = HOk h' tt) by (eexists; vm_compute; reflexivity). destruct Q as [h' Q].
    destruct (C73_tree sample sample_wf (fun n => S n) (fun _ _ => (MUninit, MUninit)) _ _ _ (mkSl 0 0 20 20) 0 h'
      (C73_new sample sample_wf tree_mem 0)) as (F' & T & HF & _).
    + fold tree_run. rewrite Q. constructor.
    + exists h', F'. split; [exact Q|]. split; [exact T|]. intro Z. destruct (HF 0 Z) as [[]|K]. cbn in K. lia.
  - repeat split; try (vm_compute; reflexivity).
    + eexists. vm_compute. reflexivity.
    + cbn. right. split; [reflexivity|]. left. discriminate.
    + cbn. left. discriminate.
Qed.
