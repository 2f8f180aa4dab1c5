(** Field lookup tables. *)
From Verif Require Import Base Wire Value Desc.
From Coq Require Import Lia Sorting.Sorted Sorting.Permutation ZifyBool.
Open Scope Z_scope.

(** The declared field with a number. *)
Definition declared (l : list fdesc) (num : Z) : option fdesc := find (fun f => (f_id f =? num)%Z) l.

Lemma declared_iff : forall l num f, NoDup (map f_id l) ->
  (declared l num = Some f <-> In f l /\ f_id f = num).
Proof.
  intros l num f. unfold declared. induction l as [|g l IH]; intro ND.
  - cbn. split; [discriminate|intros [[] _]].
  - cbn. inversion ND as [|? ? Hn ND']; subst. destruct (f_id g =? num) eqn:E.
    + apply Z.eqb_eq in E. split.
      * intro H. injection H as ->. auto.
      * intros [[->|I] H]; [reflexivity|]. exfalso. apply Hn. rewrite E, <- H. now apply in_map.
    + apply Z.eqb_neq in E. rewrite IH by assumption. split; intros [I H].
      * auto.
      * destruct I as [->|I]; [contradiction|auto].
Qed.

Definition sorted_ids (l : list fdesc) : Prop := StronglySorted (fun f g => f_id f < f_id g) l.
Lemma sorted_nodup : forall l, sorted_ids l -> NoDup (map f_id l).
Proof.
  intros l H. induction H as [|f l S IH F]; [constructor|]. cbn. constructor; [|assumption].
  intro I. apply in_map_iff in I as (g & E & I). rewrite Forall_forall in F. specialize (F g I). lia.
Qed.

Lemma max_direct_spec : forall l maxn, sorted_ids l -> Forall (fun f => maxn < f_id f) l ->
  let m := max_direct maxn l in
  maxn <= m /\ (m <= Z.max maxn 1000) /\ (forall f, In f l -> f_id f <= 1000 -> f_id f <= m) /\
  (m = maxn \/ exists f, In f l /\ f_id f = m).
Proof.
  induction l as [|f l IH]; intros maxn S F; cbn [max_direct]; [repeat split; auto; try lia; intros f []|].
  unfold maxDirectFieldMapID. inversion S as [|? ? S1 S2]; subst. inversion F as [|? ? F1 F2]; subst.
  destruct (1000 <? f_id f) eqn:E.
  - repeat split; auto; try lia. intros g [->|I] H; [lia|]. rewrite Forall_forall in S2. specialize (S2 g I). lia.
  - destruct (IH (f_id f) S1 S2) as (A & B & C & D). repeat split; try lia.
    + intros g [->|I] H; [lia|auto].
    + right. destruct D as [D|(g & I & D)]; [exists f; split; [now left|lia]|exists g; split; [now right|assumption]].
Qed.

Definition tables_ok (done : list fdesc) (m0 : list (option fdesc)) (m1 : list (Z * fdesc)) : Prop :=
  (forall v, 0 <= v < Z.of_nat (length m0) -> nth_error m0 (Z.to_nat v) = Some (declared done v)) /\
  (forall v, Z.of_nat (length m0) <= v -> lookup_id v m1 = declared done v).

Lemma nth_upd_nth : forall {A} (l : list A) n m x, (n < length l)%nat ->
  nth_error (upd_nth n x l) m = if Nat.eqb n m then Some x else nth_error l m.
Proof.
  induction l as [|a l IH]; intros n m x H; [cbn in H; lia|].
  destruct n, m; cbn; try reflexivity. apply IH. cbn in H. lia.
Qed.
Lemma upd_nth_length' : forall {A} (l : list A) n x, length (upd_nth n x l) = length l.
Proof. induction l as [|a l IH]; intros [|n] x; cbn; auto. Qed.

Lemma declared_app_last : forall l f v, ~ In (f_id f) (map f_id l) ->
  declared (l ++ [f]) v = if (f_id f =? v) then Some f else declared l v.
Proof.
  intros l f v H. unfold declared. induction l as [|g l IH]; cbn.
  - reflexivity.
  - cbn in H. destruct (f_id g =? v) eqn:E.
    + apply Z.eqb_eq in E. destruct (f_id f =? v) eqn:E'; [|reflexivity]. apply Z.eqb_eq in E'. exfalso. apply H. left. lia.
    + apply IH. intro. apply H. now right.
Qed.

Lemma fill_tables_spec : forall l done prev m0 m1,
  sorted_ids (done ++ l) -> Forall (fun f => 1 <= f_id f) (done ++ l) ->
  (forall f, In f l -> f_id f <= 1000 -> f_id f < Z.of_nat (length m0)) ->
  (Z.of_nat (length m0) <= 1001) ->
  match prev with None => done = [] | Some g => exists d, done = d ++ [g] end ->
  tables_ok done m0 m1 ->
  exists m0' m1', fill_tables prev l m0 m1 = Some (m0', m1') /\ length m0' = length m0 /\ tables_ok (done ++ l) m0' m1'.
Proof.
  induction l as [|f l IH]; intros done prev m0 m1 S P Hm Hl Hp T.
  - rewrite app_nil_r. cbn. eauto.
  - cbn [fill_tables].
    assert (Hlast : forall g, In g done -> f_id g < f_id f).
    { clear - S. induction done as [|h done IH]; [intros ? []|]. intros g [->|I].
      - inversion S as [|? ? S1 S2]; subst. rewrite Forall_forall in S2. apply S2. apply in_or_app. right. now left.
      - inversion S; subst. now apply IH. }
    assert (Hnew : ~ In (f_id f) (map f_id done)).
    { intro I. apply in_map_iff in I as (g & E & I). specialize (Hlast g I). lia. }
    assert (Hneq : match prev with Some g => (f_id f =? f_id g) = false | None => True end).
    { destruct prev as [g|]; [|exact I]. destruct Hp as (d & ->). apply Z.eqb_neq.
      specialize (Hlast g ltac:(apply in_or_app; right; now left)). lia. }
    assert (Hf1 : 1 <= f_id f). { rewrite Forall_forall in P. apply P. apply in_or_app. right. now left. }
    replace (done ++ f :: l) with ((done ++ [f]) ++ l) in * by now rewrite <- app_assoc.
    assert (Step : forall m0' m1', length m0' = length m0 -> tables_ok (done ++ [f]) m0' m1' ->
      exists m0'' m1'', match prev with
        | Some g => if f_id f =? f_id g then None else fill_tables (Some f) l m0' m1'
        | None => fill_tables (Some f) l m0' m1' end = Some (m0'', m1'') /\ length m0'' = length m0 /\ tables_ok ((done ++ [f]) ++ l) m0'' m1'').
    { intros m0' m1' Hl' T'. destruct (IH (done ++ [f]) (Some f) m0' m1' S P) as (a & b & A & B & C); try assumption; try lia.
      - intros g I H. rewrite Hl'. apply Hm; [now right|assumption].
      - eauto.
      - exists a, b. rewrite <- Hl'. destruct prev as [g|]; [rewrite Hneq|]; auto. }
    unfold maxDirectFieldMapID. destruct (f_id f <=? 1000) eqn:E1.
    + specialize (Hm f (or_introl eq_refl) ltac:(lia)).
      replace ((0 <=? f_id f) && (f_id f <? Z.of_nat (length m0)))%bool with true by lia.
      apply Step; [apply upd_nth_length'|]. destruct T as [T1 T2]. split; rewrite upd_nth_length'; intros v Hv.
      * rewrite nth_upd_nth by lia. rewrite declared_app_last by assumption.
        destruct (f_id f =? v) eqn:E2.
        -- replace (Nat.eqb (Z.to_nat (f_id f)) (Z.to_nat v)) with true by lia. reflexivity.
        -- replace (Nat.eqb (Z.to_nat (f_id f)) (Z.to_nat v)) with false by lia. now apply T1.
      * rewrite declared_app_last by assumption. replace (f_id f =? v) with false by lia. now apply T2.
    + apply Step; [reflexivity|]. destruct T as [T1 T2]. split; intros v Hv; rewrite declared_app_last by assumption.
      * replace (f_id f =? v) with false by lia. now apply T1.
      * cbn [lookup_id]. destruct (f_id f =? v); [reflexivity|]. now apply T2.
Qed.

Lemma build_tables_spec : forall l, sorted_ids l -> Forall (fun f => 1 <= f_id f) l ->
  exists m0 m1, build_tables l = Some (m0, m1) /\
    forall v, 0 <= v -> GetField_tables m0 m1 v = Some (declared l v).
Proof.
  intros l S P. unfold build_tables.
  destruct (max_direct_spec l 0 S) as (A & B & C & D).
  { eapply Forall_impl; [|exact P]. cbn. lia. }
  set (m := max_direct 0 l) in *. replace (m <? -1) with false by lia.
  destruct (fill_tables_spec l [] None (repeat None (Z.to_nat (m + 1))) [] S P) as (m0 & m1 & F & L & T1 & T2).
  - intros f I H. rewrite repeat_length. specialize (C f I H). lia.
  - rewrite repeat_length. lia.
  - reflexivity.
  - split; [|reflexivity]. intros v Hv. cbn. rewrite repeat_length in Hv.
    rewrite nth_error_repeat by lia. reflexivity.
  - exists m0, m1. split; [exact F|]. intros v Hv. unfold GetField_tables. cbn [app] in *.
    destruct (v <? Z.of_nat (length m0)) eqn:E.
    + replace (v <? 0) with false by lia. apply T1. lia.
    + f_equal. apply T2. lia.
Qed.

Lemma GetField_sorted : forall s v, sorted_ids (sd_fields s) -> Forall (fun f => 1 <= f_id f) (sd_fields s) -> 0 <= v ->
  GetField s v = Some (declared (sd_fields s) v).
Proof.
  intros s v S P H. unfold GetField. destruct (build_tables_spec _ S P) as (m0 & m1 & -> & G). now apply G.
Qed.

(** ** Sorting and duplicate detection *)
Lemma insert_perm : forall f l, Permutation (f :: l) (insert_field f l).
Proof.
  intros f l. induction l as [|g l IH]; cbn; [reflexivity|]. destruct (f_id g <? f_id f); [|reflexivity].
  rewrite perm_swap. now constructor.
Qed.
Lemma sort_perm : forall l, Permutation l (sort_fields l).
Proof.
  induction l as [|f l IH]; cbn; [reflexivity|]. rewrite <- insert_perm. now constructor.
Qed.
Definition le_sorted (l : list fdesc) : Prop := StronglySorted (fun f g => f_id f <= f_id g) l.
Lemma insert_sorted : forall f l, le_sorted l -> le_sorted (insert_field f l).
Proof.
  intros f l S. induction S as [|g l S IH F]; cbn; [repeat constructor|].
  destruct (f_id g <? f_id f) eqn:E.
  - constructor; [exact IH|]. eapply Permutation_Forall; [apply insert_perm|]. constructor; [lia|assumption].
  - constructor; [constructor; assumption|]. constructor; [lia|]. eapply Forall_impl; [|exact F]. cbn. lia.
Qed.
Lemma sort_sorted : forall l, le_sorted (sort_fields l).
Proof. induction l; cbn; [constructor|now apply insert_sorted]. Qed.

Lemma le_sorted_nodup : forall l, le_sorted l -> NoDup (map f_id l) -> sorted_ids l.
Proof.
  intros l S. induction S as [|f l S IH F]; intro ND; [constructor|]. inversion ND as [|? ? N ND']; subst.
  constructor; [apply IH; assumption|]. apply Forall_forall. intros g I. rewrite Forall_forall in F. specialize (F g I).
  assert (f_id f <> f_id g). { intro X. apply N. rewrite X. apply in_map. exact I. } lia.
Qed.

(** A duplicate makes the fill loop fail. *)
Lemma fill_tables_adjacent : forall l prev m0 m1 a b r, l = a ++ b :: r ->
  (exists x, In x (match a with [] => match prev with Some g => [g] | None => [] end | _ => [last a b] end) /\ f_id x = f_id b) ->
  fill_tables prev l m0 m1 = None.
Proof.
  induction l as [|f l IH]; intros prev m0 m1 a b r HL HX; [destruct a; discriminate|].
  cbn [fill_tables]. destruct a as [|f' a].
  - injection HL as -> ->. destruct prev as [g|]; [|destruct HX as (x & [] & _)].
    destruct HX as (x & [<-|[]] & E). replace (f_id b =? f_id g) with true by lia.
    destruct (f_id b <=? maxDirectFieldMapID); [|reflexivity]. now destruct (_ && _)%bool.
  - injection HL as <- HL.
    assert (R : forall m0 m1, fill_tables (Some f) l m0 m1 = None).
    { intros. apply (IH _ _ _ a b r HL). destruct a; exact HX. }
    destruct prev as [g|].
    + destruct (f_id f <=? maxDirectFieldMapID); [destruct (_ && _)%bool; [|reflexivity]|]; destruct (f_id f =? f_id g); auto.
    + destruct (f_id f <=? maxDirectFieldMapID); [destruct (_ && _)%bool; [|reflexivity]|]; auto.
Qed.

Lemma le_sorted_dup : forall l, le_sorted l -> ~ NoDup (map f_id l) ->
  exists a x b r, l = a ++ x :: b :: r /\ f_id x = f_id b.
Proof.
  intros l S. induction S as [|f l S IH F]; intro ND; [exfalso; apply ND; constructor|].
  destruct (in_dec Z.eq_dec (f_id f) (map f_id l)) as [I|N].
  - destruct l as [|g l]; [destruct I|]. exists [], f, g, l. split; [reflexivity|].
    apply in_map_iff in I as (h & E & I). inversion F as [|? ? F1 F2]; subst.
    destruct I as [->|I]; [lia|]. inversion S as [|? ? S1 S2]; subst. rewrite Forall_forall in S2. specialize (S2 h I). lia.
  - destruct IH as (a & x & b & r & -> & E); [intro X; apply ND; cbn; now constructor|].
    exists (f :: a), x, b, r. auto.
Qed.

Lemma declared_perm : forall l l' v, Permutation l l' -> NoDup (map f_id l) -> declared l v = declared l' v.
Proof.
  intros l l' v P ND.
  assert (ND' : NoDup (map f_id l')) by (eapply Permutation_NoDup; [apply Permutation_map, P|assumption]).
  destruct (declared l v) as [f|] eqn:A.
  - apply declared_iff in A as [I H]; [|assumption]. symmetry. apply declared_iff; [assumption|]. split; [|assumption].
    eapply Permutation_in; eassumption.
  - destruct (declared l' v) as [f|] eqn:B; [|reflexivity]. apply declared_iff in B as [I H]; [|assumption].
    assert (X : declared l v = Some f); [|congruence]. apply declared_iff; [assumption|]. split; [|assumption].
    eapply Permutation_in; [symmetry; eassumption|assumption].
Qed.

(** C20 *)
Lemma lookup_tables : forall l, Forall (fun f => 1 <= f_id f < 2^31) l ->
  (NoDup (map f_id l) -> exists m0 m1, build_tables (sort_fields l) = Some (m0, m1) /\
     forall v, 0 <= v < 2^31 -> exists r, GetField_tables m0 m1 v = Some r /\
       (forall f, r = Some f <-> In f l /\ f_id f = v)) /\
  (~ NoDup (map f_id l) -> build_tables (sort_fields l) = None).
Proof.
  intros l P. split; intro ND.
  - assert (S : sorted_ids (sort_fields l)).
    { apply le_sorted_nodup; [apply sort_sorted|]. eapply Permutation_NoDup; [apply Permutation_map, sort_perm|assumption]. }
    destruct (build_tables_spec (sort_fields l) S) as (m0 & m1 & B & G).
    { eapply Permutation_Forall; [apply sort_perm|]. eapply Forall_impl; [|exact P]. cbn. lia. }
    exists m0, m1. split; [exact B|]. intros v Hv. eexists. split; [apply G; lia|].
    intro f. rewrite <- (declared_perm l) by (auto using sort_perm). now apply declared_iff.
  - destruct (le_sorted_dup (sort_fields l) (sort_sorted l)) as (a & x & b & r & HL & E).
    { intro X. apply ND. eapply Permutation_NoDup; [apply Permutation_map; symmetry; apply sort_perm|assumption]. }
    unfold build_tables. destruct (_ <? -1); [reflexivity|].
    apply (fill_tables_adjacent _ _ _ _ (a ++ [x]) b r).
    + rewrite HL, <- app_assoc. reflexivity.
    + exists x. split; [|assumption]. destruct a; [now left|]. cbn [app]. left.
      change (f :: a ++ [x]) with ((f :: a) ++ [x]). now rewrite last_last.
Qed.
