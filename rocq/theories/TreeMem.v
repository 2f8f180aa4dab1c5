(** Facts about trees in memory (TreeSpec.v). *)
From Coq Require Import Lia.
From Verif Require Import Base Value HMem OwnSpec OwnMem OwnPost TreeSpec.
Open Scope nat_scope.

Scheme parts_ind3 := Minimality for parts Sort Prop
  with parts_all_ind3 := Minimality for parts_all Sort Prop
  with parts_entries_ind3 := Minimality for parts_entries Sort Prop.
Combined Scheme parts_mutind from parts_ind3, parts_all_ind3, parts_entries_ind3.

Lemma parts_frame_all : forall h h',
  (forall x F, parts h x F -> same_on (fun o => In o F) h h' -> parts h' x F) /\
  (forall xs F, parts_all h xs F -> same_on (fun o => In o F) h h' -> parts_all h' xs F) /\
  (forall xs F, parts_entries h xs F -> same_on (fun o => In o F) h h' -> parts_entries h' xs F).
Proof.
  intros h h'. apply parts_mutind; intros; try (constructor; auto; fail).
  - econstructor; [|match goal with H : _ -> parts h' _ _ |- _ => apply H end].
    + match goal with H : same_on _ _ _ |- _ => rewrite H by (now left) end. assumption.
    + intros z Hz. match goal with H : same_on _ _ _ |- _ => apply H; now right end.
  - econstructor; [eassumption| |match goal with H : _ -> parts_all h' _ _ |- _ => apply H end].
    + eapply has_cells_ext; [|eassumption]. match goal with H : same_on _ _ _ |- _ => apply H; now left end.
    + intros z Hz. match goal with H : same_on _ _ _ |- _ => apply H; now right end.
  - econstructor; [|match goal with H : _ -> parts_entries h' _ _ |- _ => apply H end].
    + match goal with H : same_on _ _ _ |- _ => rewrite H by (now left) end. assumption.
    + intros z Hz. match goal with H : same_on _ _ _ |- _ => apply H; now right end.
  - constructor; [|assumption]. match goal with H : _ -> parts_all h' _ _ |- _ => apply H end.
    intros z Hz. match goal with H : same_on _ _ _ |- _ => apply H; apply in_or_app; now left end.
  - econstructor; [|match goal with H : _ -> parts h' _ _ |- _ => apply H end].
    + match goal with H : same_on _ _ _ |- _ => rewrite H by (now left) end. assumption.
    + intros z Hz. match goal with H : same_on _ _ _ |- _ => apply H; now right end.
  - match goal with H : same_on _ _ _ |- _ => rename H into S0 end.
    constructor; [match goal with H : _ -> parts h' _ _ |- _ => apply H end|match goal with H : _ -> parts_all h' _ _ |- _ => apply H end];
      intros z Hz; apply S0, in_or_app; tauto.
  - match goal with H : same_on _ _ _ |- _ => rename H into S0 end.
    constructor; [match goal with H : _ -> parts h' k _ |- _ => apply H end|match goal with H : _ -> parts h' x _ |- _ => apply H end|
      match goal with H : _ -> parts_entries h' _ _ |- _ => apply H end];
      intros z Hz; apply S0; rewrite !in_app_iff; tauto.
Qed.
Definition parts_frame h h' := proj1 (parts_frame_all h h').
Definition parts_all_frame h h' := proj1 (proj2 (parts_frame_all h h')).
Definition parts_entries_frame h h' := proj2 (proj2 (parts_frame_all h h')).

Lemma parts_all_app : forall h xs F, parts_all h xs F -> forall ys G, parts_all h ys G -> parts_all h (xs ++ ys) (F ++ G).
Proof. intros h xs F H. induction H; intros; cbn; [assumption|]. rewrite <- app_assoc. constructor; auto. Qed.
Lemma parts_all_split : forall h xs ys F, parts_all h (xs ++ ys) F ->
  exists F1 F2, F = F1 ++ F2 /\ parts_all h xs F1 /\ parts_all h ys F2.
Proof.
  intros h xs. induction xs as [|x xs IH]; intros ys F H; cbn in H.
  - exists [], F. split; [reflexivity|]. split; [constructor|exact H].
  - inversion H as [|? ? G1 G2 H1 H2]; subst. destruct (IH _ _ H2) as (F1 & F2 & -> & K1 & K2).
    exists (G1 ++ F1), F2. rewrite <- app_assoc. split; [reflexivity|]. split; [now constructor|exact K2].
Qed.
Lemma parts_all_nth : forall h xs F i x, parts_all h xs F -> nth_error xs i = Some x ->
  exists xa xb Fa Fi Fb, xs = xa ++ x :: xb /\ length xa = i /\ F = Fa ++ Fi ++ Fb /\
    parts h x Fi /\ parts_all h xa Fa /\ parts_all h xb Fb.
Proof.
  intros h xs F i x H E. destruct (nth_error_split _ _ E) as (xa & xb & -> & El).
  destruct (parts_all_split _ _ _ _ H) as (Fa & F2 & -> & K1 & K2). inversion K2; subst.
  exists xa, xb, Fa, F1, F0. auto 10.
Qed.

Lemma app_inj_len : forall {X} (a a' b b' : list X), length a = length a' -> a ++ b = a' ++ b' -> a = a' /\ b = b'.
Proof.
  intros X a. induction a as [|x a IH]; intros [|y a'] b b' L E; try discriminate L; [auto|].
  cbn in *. injection E as -> E. destruct (IH a' b b' ltac:(lia) E) as [-> ->]. auto.
Qed.

(** What is in a tree is unchanged when the tree is *)
Lemma reads_parts_all : forall h A h',
  (forall x v, reads h A x v -> forall F, parts h x F -> same_on (fun o => In o F) h h' -> reads h' (fun _ => True) x v) /\
  (forall xs vs, reads_all h A xs vs -> forall F, parts_all h xs F -> same_on (fun o => In o F) h h' -> reads_all h' (fun _ => True) xs vs) /\
  (forall xs vs, reads_entries h A xs vs -> forall F, parts_entries h xs F -> same_on (fun o => In o F) h h' -> reads_entries h' (fun _ => True) xs vs).
Proof.
  intros h A h'.
  assert (RD : forall n s F, F = array_of n s -> s_len s <= n -> same_on (fun o => In o F) h h' -> rd h' s = rd h s).
  { intros n s F -> Hn Q. apply rd_ext. unfold array_of in Q. destruct (Nat.eqb_spec n 0); [left; lia|].
    right. apply Q. now left. }
  assert (IB : forall n s F, F = array_of n s -> s_len s <= n -> same_on (fun o => In o F) h h' -> in_bytes h A s -> in_bytes h' (fun _ => True) s).
  { intros n s F -> Hn Q [Z|[_ V]]; [now left|]. unfold array_of in Q. destruct (Nat.eqb_spec n 0); [left; lia|].
    right. split; [exact Logic.I|]. unfold bytes_of in *. rewrite (Q (s_arr s)); [exact V|now left]. }
  apply reads_mutind.
  - intros F P Q. constructor.
  - intros n F P Q. constructor.
  - intros s I0 F P Q. inversion P; subst. erewrite <- RD; [|reflexivity|reflexivity|eassumption]. constructor. eapply IB; [reflexivity|reflexivity|eassumption|assumption].
  - intros F P Q. constructor.
  - intros s I0 F P Q. inversion P; subst. erewrite <- RD; [|reflexivity|eassumption|eassumption]. constructor. eapply IB; [reflexivity|eassumption|eassumption|assumption].
  - intros F P Q. constructor.
  - intros L x v HA HL R IH F P Q. inversion P as [| | | | |o y G HO PY| | | | | | | |]; subst. econstructor; [exact Logic.I| |].
    + rewrite (hload_ext h h'); [exact HL|]. apply Q. now left.
    + apply (IH G).
      * assert (y = x) as <- by (unfold hload, cells_of in HL; cbn in HL; rewrite HO in HL; cbn in HL; congruence). exact PY.
      * intros z Hz. apply Q. now right.
  - intros s E1 E2 F P Q. now constructor.
  - intros s xs ys es sp C HA HC R1 IH1 R2 IH2 F P Q.
    inversion P as [| | | | | | |s0 xs0 ys0 G C0 HC0 PA| | | | | |]; subst; [lia|].
    assert (xs0 = xs /\ ys0 = ys) as [-> ->].
    { destruct HC as (p & q & E1 & E2 & E3 & E4), HC0 as (p' & q' & E1' & E2' & E3' & E4').
      rewrite E1 in E1'. destruct (app_inj_len _ _ _ _ (eq_trans E2 (eq_sym E2')) E1') as [_ E5].
      destruct (app_inj_len _ _ _ _ (eq_trans E3 (eq_sym E3')) E5) as [-> E6].
      assert (El : length ys = length ys0) by lia. destruct (app_inj_len _ _ _ _ El E6) as [-> _]. auto. }
    destruct (parts_all_split _ _ _ _ PA) as (F1 & F2 & -> & K1 & K2).
    eapply reads_slice; [exact C|exact Logic.I| | |].
    + eapply has_cells_ext; [|exact HC]. apply Q. now left.
    + apply (IH1 F1); [exact K1|]. intros z Hz. apply Q. right. apply in_or_app. now left.
    + apply (IH2 F2); [exact K2|]. intros z Hz. apply Q. right. apply in_or_app. now right.
  - intros F P Q. constructor.
  - intros o ents m HA HO R IH F P Q. inversion P as [| | | | | | | | |o' ents' G HO' PE| | | |]; subst.
    assert (ents' = ents) as -> by congruence. econstructor; [exact Logic.I| |].
    + rewrite Q by now left. exact HO.
    + apply (IH G); [exact PE|]. intros z Hz. apply Q. now right.
  - intros xs vs u ub R IH RU F P Q. inversion P as [| | | | | | | | | |xs' u' G PA SZ| | |]; subst. constructor.
    + apply (IH G); [exact PA|]. intros z Hz. apply Q, in_or_app. now left.
    + destruct RU as [|s I0]; [constructor|]. assert (QF : same_on (fun o => In o (array_of (s_cap s) s)) h h') by (intros z Hz; apply Q, in_or_app; now right).
      erewrite <- RD; [|reflexivity|exact SZ|exact QF]. constructor. eapply IB; [reflexivity|exact SZ|exact QF|exact I0].
  - intros F P Q. constructor.
  - intros w F P Q. constructor.
  - intros w L x v HA HL R IH F P Q. inversion P as [| | | | | | | | | | | | |w' o y G HO PY]; subst. econstructor; [exact Logic.I| |].
    + rewrite (hload_ext h h'); [exact HL|]. apply Q. now left.
    + apply (IH G).
      * assert (y = x) as <- by (unfold hload, cells_of in HL; cbn in HL; rewrite HO in HL; cbn in HL; congruence). exact PY.
      * intros z Hz. apply Q. now right.
  - intros F P Q. constructor.
  - intros x v xs vs R1 IH1 R2 IH2 F P Q. inversion P; subst. constructor.
    + eapply IH1; [eassumption|]. intros z Hz. apply Q, in_or_app. now left.
    + eapply IH2; [eassumption|]. intros z Hz. apply Q, in_or_app. now right.
  - intros F P Q. constructor.
  - intros k kv x v xs vs R1 IH1 R2 IH2 R3 IH3 F P Q. inversion P; subst. constructor.
    + eapply IH1; [eassumption|]. intros z Hz. apply Q. rewrite !in_app_iff. tauto.
    + eapply IH2; [eassumption|]. intros z Hz. apply Q. rewrite !in_app_iff. tauto.
    + eapply IH3; [eassumption|]. intros z Hz. apply Q. rewrite !in_app_iff. tauto.
Qed.
