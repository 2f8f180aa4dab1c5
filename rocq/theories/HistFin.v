(** Invariants of descriptor parsing with its caches: finalization. *)
From Coq Require Import Bool Lia.
From Verif Require Import Base Wire Coder MapTables Value Desc GoStr TagParse Parse StrFacts Hist HistSpec HistProofs HistInv.
Open Scope nat_scope.

(** * finalize_field *)
Lemma finalize_field_twice : forall k v d d', finalize_field k v d = Some d' -> finalize_field k v d' = Some d' /\ f_T d' = f_T d.
Proof.
  intros k v d d'. unfold finalize_field. destruct (IsMap d) eqn:M.
  - destruct (parseKVTag k) as [a|] eqn:Ka; [|discriminate]. destruct (parseKVTag v) as [b|] eqn:Kb; [|discriminate].
    destruct (checkTypeMatch _) eqn:C; [|discriminate]. injection 1 as <-. unfold IsMap in *. cbn [f_T] in *. rewrite M. cbn. rewrite C. auto.
  - destruct (checkTypeMatch d) eqn:C; [|discriminate]. injection 1 as <-. rewrite M, C. auto.
Qed.

Lemma Forall2_len : forall A B (R : A -> B -> Prop) a b, Forall2 R a b -> length a = length b.
Proof. induction 1; cbn; congruence. Qed.

(** * What finalization changes *)
Definition fstep (f f' : ofield) : Prop :=
  of_T f' = of_T f /\ pf_key (of_p f') = pf_key (of_p f) /\ pf_val (of_p f') = pf_val (of_p f) /\
  (pf_desc (of_p f') = pf_desc (of_p f) \/ finalize_field (pf_key (of_p f)) (pf_val (of_p f)) (pf_desc (of_p f)) = Some (pf_desc (of_p f'))).
Lemma fstep_refl : forall f, fstep f f.
Proof. intros f. repeat split. now left. Qed.
Lemma fstep_trans : forall a b c, fstep a b -> fstep b c -> fstep a c.
Proof.
  intros a b c (A1 & A2 & A3 & A4) (B1 & B2 & B3 & B4). repeat split; try congruence. rewrite A2, A3 in B4.
  destruct A4 as [A4|A4]; [rewrite A4 in B4; exact B4|]. right. destruct B4 as [B4|B4]; [now rewrite B4|].
  destruct (finalize_field_twice _ _ _ _ A4) as (T & _). congruence.
Qed.
Lemma fsteps_trans : forall a b c, Forall2 fstep a b -> Forall2 fstep b c -> Forall2 fstep a c.
Proof.
  intros a b c H. revert c. induction H as [|x y a b S F IH]; intros c G; inversion G; subst; constructor; eauto using fstep_trans.
Qed.
Lemma fsteps_refl : forall l, Forall2 fstep l l.
Proof. induction l; constructor; auto using fstep_refl. Qed.

Record sp (h h' : heap) : Prop := {
  sp_ct : ct h' = ct h; sp_cs : cs h' = cs h; sp_cache : cache h' = cache h;
  sp_tn : h_tn h' = h_tn h; sp_sn : h_sn h' = h_sn h;
  sp_t : forall o, to_rt (th h' o) = to_rt (th h o) /\ to_K (th h' o) = to_K (th h o) /\ to_V (th h' o) = to_V (th h o) /\ to_S (th h' o) = to_S (th h o);
  sp_tf : forall o, to_fin (th h o) = true -> to_fin (th h' o) = true;
  sp_s : forall s, so_id (sh h' s) = so_id (sh h s) /\ Forall2 fstep (so_fields (sh h s)) (so_fields (sh h' s));
  sp_sf : forall s, so_fin (sh h s) = true -> so_fin (sh h' s) = true }.
Lemma sp_refl : forall h, sp h h.
Proof. intros h. constructor; auto using fsteps_refl. Qed.
Lemma sp_trans : forall a b c, sp a b -> sp b c -> sp a c.
Proof.
  intros a b c [] []. constructor; try congruence; auto.
  - intros o. destruct (sp_t0 o) as (? & ? & ? & ?), (sp_t1 o) as (? & ? & ? & ?). repeat split; congruence.
  - intros s. destruct (sp_s0 s), (sp_s1 s). split; [congruence|]. eauto using fsteps_trans.
Qed.
Lemma sp_set_tfin : forall h o, sp h (set_tfin h o true).
Proof.
  intros h o. constructor; cbn; auto using fsteps_refl.
  - intros a. destruct (Nat.eqb_spec a o) as [E|E]; [subst a|]; auto.
  - intros a A. destruct (Nat.eqb_spec a o) as [E|E]; [subst a|]; auto.
Qed.
Lemma sp_set_sfin : forall h s, sp h (set_sfin h s true).
Proof.
  intros h o. constructor; cbn; auto.
  - intros a. destruct (Nat.eqb_spec a o) as [E|E]; [subst a|]; auto using fsteps_refl.
  - intros a A. destruct (Nat.eqb_spec a o) as [E|E]; [subst a|]; auto.
Qed.
Lemma sp_reset_t : forall h h' o, sp h h' -> to_fin (th h o) = false -> sp h (set_tfin h' o false).
Proof.
  intros h h' o [] F. constructor; cbn; auto.
  - intros a. destruct (Nat.eqb_spec a o) as [E|E]; [subst a|]; auto. cbn. apply sp_t0.
  - intros a A. destruct (Nat.eqb_spec a o) as [E|E]; [subst a|]; auto. congruence.
Qed.
Lemma sp_reset_s : forall h h' o, sp h h' -> so_fin (sh h o) = false -> sp h (set_sfin h' o false).
Proof.
  intros h h' o [] F. constructor; cbn; auto.
  - intros a. destruct (Nat.eqb_spec a o) as [E|E]; [subst a|]; auto. cbn. apply sp_s0.
  - intros a A. destruct (Nat.eqb_spec a o) as [E|E]; [subst a|]; auto. congruence.
Qed.
Lemma set_nth_fstep : forall l n f f', nth_error l n = Some f -> fstep f f' -> Forall2 fstep l (firstn n l ++ f' :: skipn (S n) l).
Proof.
  induction l as [|g l IH]; intros n f f' E S; [destruct n; discriminate|]. destruct n as [|n]; cbn in *.
  - injection E as ->. constructor; [exact S|apply fsteps_refl].
  - constructor; [apply fstep_refl|]. now apply (IH n f).
Qed.
Lemma sp_set_fields : forall h s l, Forall2 fstep (so_fields (sh h s)) l -> sp h (set_fields h s l).
Proof.
  intros h o l F. constructor; cbn; auto.
  - intros a. destruct (Nat.eqb_spec a o) as [E|E]; [subst a|]; auto using fsteps_refl.
  - intros a A. destruct (Nat.eqb_spec a o) as [E|E]; [subst a|]; auto.
Qed.
Lemma finalizeField_fstep : forall h f f', finalizeField h f = ROk f' -> fstep f f' /\
  finalize_field (pf_key (of_p f')) (pf_val (of_p f')) (pf_desc (of_p f')) = Some (pf_desc (of_p f')).
Proof.
  intros h f f'. unfold finalizeField. destruct (linked _ _ _); [|discriminate]. destruct (finalize_field _ _ _) as [d|] eqn:E; [|discriminate].
  injection 1 as <-. cbn. split; [repeat split; now right|]. now apply finalize_field_twice in E.
Qed.

Lemma each_sp : forall ft, (forall h o h' r, ft h o = (h', r) -> sp h h') -> forall l h h' r, each ft h l = (h', r) -> sp h h'.
Proof.
  intros ft P. induction l as [|[o|] l IH]; intros h h' r E; cbn in E; [injection E as <- <-; apply sp_refl| |eauto].
  destruct (ft h o) as [h1 r1] eqn:E1. pose proof (P _ _ _ _ E1). destruct r1; cbn in E; try (injection E as <- <-; assumption).
  eauto using sp_trans.
Qed.
Lemma fields_loop_sp : forall ft, (forall h o h' r, ft h o = (h', r) -> sp h h') -> forall c h s n h' r, fields_loop ft h s n c = (h', r) -> sp h h'.
Proof.
  intros ft P. induction c as [|c IH]; intros h s n h' r E; cbn [fields_loop] in E; [injection E as <- <-; apply sp_refl|].
  destruct (nth_error _ n) as [f|] eqn:N; [|injection E as <- <-; apply sp_refl].
  destruct (finalizeField h f) as [f'| | |] eqn:FF; try (injection E as <- <-; apply sp_refl).
  apply finalizeField_fstep in FF as (S & _).
  set (h1 := set_fields h s _) in *. assert (S1 : sp h h1) by (apply sp_set_fields; now apply (set_nth_fstep _ _ f)).
  match type of E with rbind (each ?a ?b ?c) _ = _ => destruct (each a b c) as [h2 r2] eqn:E2 end.
  apply (each_sp _ P) in E2. pose proof (sp_trans _ _ _ S1 E2). destruct r2; cbn in E; try (injection E as <- <-; assumption).
  eauto using sp_trans.
Qed.
Lemma fin_sp : forall fuel, (forall h o h' r, finalizeType fuel h o = (h', r) -> sp h h') /\ (forall h s h' r, finalizeStruct fuel h s = (h', r) -> sp h h').
Proof.
  induction fuel as [|k (IHt & IHs)]; (split; intros h o h' r E; cbn [finalizeType finalizeStruct] in E; [|]).
  1,2: injection E as <- <-; apply sp_refl.
  - destruct (to_fin (th h o)) eqn:F; [injection E as <- <-; apply sp_refl|].
    destruct (each (finalizeStruct k) _ _) as [h1 r1] eqn:E1. apply (each_sp _ IHs) in E1. pose proof (sp_trans _ _ _ (sp_set_tfin h o) E1) as S1.
    destruct r1; try (injection E as <- <-; auto using sp_reset_t).
    destruct (each (finalizeType k) _ _) as [h2 r2] eqn:E2. apply (each_sp _ IHt) in E2. pose proof (sp_trans _ _ _ S1 E2) as S2.
    destruct r2; injection E as <- <-; auto using sp_reset_t.
  - destruct (so_fin (sh h o)) eqn:F; [injection E as <- <-; apply sp_refl|].
    destruct (fields_loop (finalizeType k) _ _ _ _) as [h1 r1] eqn:E1. apply (fields_loop_sp _ IHt) in E1. pose proof (sp_trans _ _ _ (sp_set_sfin h o) E1) as S1.
    destruct r1; injection E as <- <-; auto using sp_reset_s.
Qed.
Definition finT_sp k := proj1 (fin_sp k).
Definition finS_sp k := proj2 (fin_sp k).

Section D.
Variable D : nat -> godecl.
Section Fin.
Variable allok : bool.
Variable W : gotype -> Prop.
Variable WS : nat -> Prop.
Hypothesis HPtr : forall t, W (TPtr t) -> W t.
Hypothesis HSlice : forall t, W (TSlice t) -> W t.
Hypothesis HMap : forall k v, W (TMap k v) -> W k /\ W v.
Hypothesis HStruct : forall i, W (TStruct i) -> WS i.
Hypothesis HOther : W TOther.
Hypothesis HRaw : forall i l p, WS i -> raw_struct (D i) = POk l -> In p l -> W (f_T (pf_desc p)).
Hypothesis HFin : forall i l p, allok = false -> WS i -> raw_struct (D i) = POk l -> In p l ->
  finalize_field (pf_key p) (pf_val p) (pf_desc p) <> None.

Definition none {A} : A -> Prop := fun _ => False.
Definition inv h := Inv D W WS h none none.

Lemma sp_inv : forall h h' KT KS, sp h h' -> Inv D W WS h KT KS -> Inv D W WS h' KT KS.
Proof.
  intros h h' KT KS [] [I1 I2 I3 I4 I5]. constructor.
  - destruct I1. constructor; auto; intros a L; try (exfalso; lia).
    + rewrite (proj1 (sp_t0 a)). apply fr_wft. lia.
    + rewrite (proj1 (sp_s0 a)). apply fr_wfs. lia.
  - intros t o Wt E. rewrite sp_ct0 in E. destruct (I2 t o Wt E) as (L & R & K). destruct (sp_t0 o) as (A1 & A2 & A3 & A4).
    split; [lia|]. split; [congruence|]. destruct K as [K|K]; [now left|right].
    destruct (th h' o) as [rt' K' V' S' f'], (th h o) as [rt K0 V0 S0 f]. cbn in *. subst.
    destruct t as [kd| | |i|t|t|t1 t2|alts|]; cbn in *; rewrite ?sp_ct0, ?sp_cs0.
    1,2,8,9: injection K as -> -> ->; reflexivity.
    + destruct K as (v & [= -> -> ->] & C). eauto.
    + destruct K as (v & [= -> -> ->] & C). eauto.
    + destruct K as (P & v & [= -> -> ->] & C). eauto.
    + destruct K as (v & [= -> -> ->] & C). eauto.
    + destruct K as (a & v & [= -> -> ->] & C & C'). eauto.
  - intros i s Wi E. rewrite sp_cs0 in E. destruct (I3 i s Wi E) as (L & R & K). destruct (sp_s0 s) as (A1 & A2).
    split; [lia|]. split; [congruence|]. destruct K as [K|K]; [now left|right]. destruct K as (l & RS & F). exists l. split; [exact RS|].
    clear RS. revert A2 F. generalize (so_fields (sh h s)), (so_fields (sh h' s)). intros fs fs' A2. revert l.
    induction A2 as [|f f' fs fs' (B1 & B2 & B3 & B4) A2 IH]; intros l F; inversion F as [|? p ? l' (C1 & C2 & C3 & C4) F']; subst; constructor; auto.
    repeat split; try congruence. rewrite C1, C2 in B4. destruct B4 as [B4|B4]; [rewrite B4; exact C3|]. right.
    destruct C3 as [C3|C3]; [now rewrite C3 in B4|]. destruct (finalize_field_twice _ _ _ _ C3). congruence.
  - intros o A Wo. rewrite (proj1 (sp_t0 o)) in *. rewrite sp_ct0. apply I4; [lia|exact Wo].
  - intros s i A Es Wi. rewrite (proj1 (sp_s0 s)) in Es. rewrite sp_cs0. apply I5; [lia|assumption..].
Qed.

(** objects watched *)
Definition WO (h : heap) (o : nat) : Prop := exists t, W t /\ ct h t = Some o.
Definition WSO (h : heap) (s : nat) : Prop := exists i, WS i /\ cs h i = Some s.
Lemma WO_sp : forall h h' o, sp h h' -> WO h o -> WO h' o.
Proof. intros h h' o [] (t & A & B). exists t. now rewrite sp_ct0. Qed.
Lemma WSO_sp : forall h h' o, sp h h' -> WSO h o -> WSO h' o.
Proof. intros h h' o [] (t & A & B). exists t. now rewrite sp_cs0. Qed.
Lemma WO_links : forall h o, inv h -> WO h o ->
  (forall a, to_K (th h o) = Some a -> WO h a) /\ (forall a, to_V (th h o) = Some a -> WO h a) /\ (forall s, to_S (th h o) = Some s -> WSO h s).
Proof.
  intros h o IV (t & Wt & C). destruct (inv_t _ _ _ _ _ _ IV t o Wt C) as (_ & _ & [[]|K]).
  destruct t as [kd| | |i|t|t|t1 t2|alts|]; cbn in K.
  1,2,8,9: rewrite K; cbn; repeat split; discriminate.
  - destruct K as (v & -> & Cv). cbn. repeat split; try discriminate. intros a [= <-]. now exists TOther.
  - destruct K as (s & -> & Cv). cbn. repeat split; try discriminate. intros a [= <-]. exists i. auto.
  - destruct K as (_ & v & -> & Cv). cbn. repeat split; try discriminate. intros a [= <-]. exists t. auto.
  - destruct K as (v & -> & Cv). cbn. repeat split; try discriminate. intros a [= <-]. exists t. auto.
  - destruct K as (x & v & -> & Cx & Cv). apply HMap in Wt as (W1 & W2). cbn. repeat split; try discriminate; intros a [= <-]; [exists t1|exists t2]; auto.
Qed.
Lemma WSO_fields : forall h s, inv h -> WSO h s -> Forall (fun f => W (f_T (pf_desc (of_p f))) /\ ct h (f_T (pf_desc (of_p f))) = Some (of_T f) /\
  (allok = false -> finalize_field (pf_key (of_p f)) (pf_val (of_p f)) (pf_desc (of_p f)) <> None)) (so_fields (sh h s)).
Proof.
  intros h s IV (i & Wi & C). destruct (inv_s _ _ _ _ _ _ IV i s Wi C) as (_ & _ & [[]|K]). destruct K as (l & R & F).
  assert (A : forall p, In p l -> W (f_T (pf_desc p)) /\ (allok = false -> finalize_field (pf_key p) (pf_val p) (pf_desc p) <> None)) by eauto. clear R.
  induction F as [|f p fs l (B1 & B2 & B3 & B4) F IH]; constructor; [|apply IH; intros q Q; apply A; now right].
  destruct (A p (or_introl eq_refl)) as (A1 & A2). rewrite B1, B2. destruct B3 as [B3|B3]; [rewrite B3; auto|].
  destruct (finalize_field_twice _ _ _ _ B3) as (B5 & B6). rewrite B6. repeat split; auto. intros _. congruence.
Qed.
Lemma linked_ok : forall h t o, inv h -> W t -> ct h t = Some o -> linked h t o = true.
Proof.
  intros h t o IV. revert o. induction t as [k| | |i|t IH|t IH|k v IHk IHv|l IH|] using gotype_ind'; intros o Wt C; try reflexivity.
  all: destruct (inv_t _ _ _ _ _ _ IV _ o Wt C) as (_ & _ & [[]|K]); cbn in K |- *.
  - destruct K as (_ & v & -> & Cv). cbn. auto.
  - destruct K as (v & -> & Cv). cbn. auto.
  - destruct K as (a & b & -> & Ca & Cb). cbn. apply HMap in Wt as (W1 & W2). rewrite IHk, IHv; auto.
Qed.

Definition done (h : heap) (f : ofield) : Prop :=
  finalize_field (pf_key (of_p f)) (pf_val (of_p f)) (pf_desc (of_p f)) = Some (pf_desc (of_p f)) /\ to_fin (th h (of_T f)) = true.
Lemma done_sp : forall h h' f f', sp h h' -> fstep f f' -> done h f -> done h' f'.
Proof.
  intros h h' f f' S (A1 & A2 & A3 & A4) (B1 & B2). split; [|rewrite A1; now apply (sp_tf _ _ S)].
  rewrite A2, A3. destruct A4 as [A4|A4]; [now rewrite A4|]. congruence.
Qed.

Record FInv (h : heap) (KF KSF : nat -> Prop) : Prop := {
  fi_t : forall o, WO h o -> to_fin (th h o) = true -> KF o \/
    (forall s, to_S (th h o) = Some s -> so_fin (sh h s) = true) /\ (forall v, to_V (th h o) = Some v -> to_fin (th h v) = true);
  fi_s : forall s, WSO h s -> so_fin (sh h s) = true -> KSF s \/ Forall (done h) (so_fields (sh h s)) }.

Lemma FInv_start_t : forall h KF KSF o, FInv h KF KSF -> FInv (set_tfin h o true) (also o KF) KSF.
Proof.
  intros h KF KSF o [F1 F2]. constructor.
  - intros a Wa Fa. destruct (Nat.eq_dec a o) as [->|N]; [left; now left|]. cbn in Fa |- *. rewrite (proj2 (Nat.eqb_neq a o) N) in *.
    destruct (F1 a Wa Fa) as [K|(A & B)]; [left; now right|right]. split; [exact A|]. intros v V. destruct (Nat.eqb v o); cbn; auto.
  - intros s Ws Fs. destruct (F2 s Ws Fs) as [K|K]; [now left|right]. eapply Forall_impl; [|exact K]. intros f Hf. eapply done_sp; [apply sp_set_tfin|apply fstep_refl|exact Hf].
Qed.
Lemma FInv_start_s : forall h KF KSF s, FInv h KF KSF -> FInv (set_sfin h s true) KF (also s KSF).
Proof.
  intros h KF KSF o [F1 F2]. constructor.
  - intros a Wa Fa. destruct (F1 a Wa Fa) as [K|(A & B)]; [now left|right]. split; [|exact B]. intros s V. cbn. destruct (Nat.eqb s o); cbn; auto.
  - intros s Ws Fs. destruct (Nat.eq_dec s o) as [->|N]; [left; now left|]. cbn in Fs |- *. rewrite (proj2 (Nat.eqb_neq s o) N) in *.
    destruct (F2 s Ws Fs) as [K|K]; [left; now right|right]. exact K.
Qed.
(** ** End *)
Lemma FInv_end_t : forall h KF KSF o, FInv h (also o KF) KSF ->
  (WO h o -> (forall s, to_S (th h o) = Some s -> so_fin (sh h s) = true) /\ (forall v, to_V (th h o) = Some v -> to_fin (th h v) = true)) -> FInv h KF KSF.
Proof.
  intros h KF KSF o [F1 F2] E. constructor; [|exact F2]. intros a Wa Fa. destruct (F1 a Wa Fa) as [[->|K]|K]; auto.
Qed.
Lemma FInv_end_s : forall h KF KSF s, FInv h KF (also s KSF) -> (WSO h s -> Forall (done h) (so_fields (sh h s))) -> FInv h KF KSF.
Proof.
  intros h KF KSF o [F1 F2] E. constructor; [exact F1|]. intros a Wa Fa. destruct (F2 a Wa Fa) as [[->|K]|K]; auto.
Qed.
(** ** Failure: of an object that is not watched *)
Lemma FInv_reset_t : forall h KF KSF o, inv h -> FInv h (also o KF) KSF -> ~ WO h o -> FInv (set_tfin h o false) KF KSF.
Proof.
  intros h KF KSF o IV [F1 F2] N. constructor.
  - intros a Wa Fa. assert (a <> o) as Na by (intros ->; now apply N). cbn in Fa |- *. rewrite (proj2 (Nat.eqb_neq a o) Na) in *.
    destruct (F1 a Wa Fa) as [[K|K]|(A & B)]; [contradiction|now left|right]. split; [exact A|]. intros v V.
    destruct (WO_links h a IV Wa) as (_ & Wv & _). destruct (Nat.eqb_spec v o) as [->|_]; [|now apply B]. exfalso. apply N. now apply Wv.
  - intros s Ws Fs. destruct (F2 s Ws Fs) as [K|K]; [now left|right]. pose proof (WSO_fields h s IV Ws) as WF. cbn. revert K WF.
    generalize (so_fields (sh h s)). intros l K WF. rewrite Forall_forall in *. intros f Hf. destruct (K f Hf) as (A & B). destruct (WF f Hf) as (C1 & C2 & _).
    split; [exact A|]. cbn. destruct (Nat.eqb_spec (of_T f) o) as [E|_]; [|exact B]. exfalso. apply N. rewrite <- E. now exists (f_T (pf_desc (of_p f))).
Qed.
Lemma FInv_reset_s : forall h KF KSF s, inv h -> FInv h KF (also s KSF) -> ~ WSO h s -> FInv (set_sfin h s false) KF KSF.
Proof.
  intros h KF KSF o IV [F1 F2] N. constructor.
  - intros a Wa Fa. destruct (F1 a Wa Fa) as [K|(A & B)]; [now left|right]. split; [|exact B]. intros s V. cbn in V |- *.
    destruct (WO_links h a IV Wa) as (_ & _ & Wv). destruct (Nat.eqb_spec s o) as [->|_]; [|now apply A]. exfalso. apply N. now apply Wv.
  - intros s Ws Fs. assert (s <> o) as Na by (intros ->; now apply N). cbn in Fs |- *. rewrite (proj2 (Nat.eqb_neq s o) Na) in *.
    destruct (F2 s Ws Fs) as [[K|K]|K]; [contradiction|now left|now right].
Qed.
Lemma FInv_set_fields : forall h KF KSF s l, FInv h KF KSF -> KSF s -> FInv (set_fields h s l) KF KSF.
Proof.
  intros h KF KSF o l [F1 F2] K. constructor.
  - intros a Wa Fa. destruct (F1 a Wa Fa) as [Ka|(A & B)]; [now left|right]. split; [|exact B]. intros s V. cbn. destruct (Nat.eqb_spec s o) as [->|_]; cbn; auto.
  - intros s Ws Fs. destruct (Nat.eq_dec s o) as [->|N]; [now left|]. cbn in Fs |- *. rewrite (proj2 (Nat.eqb_neq s o) N) in *. exact (F2 s Ws Fs).
Qed.

(** * The calls *)
Definition FP (watched : heap -> nat -> Prop) (flag : heap -> nat -> bool) (ft : heap -> nat -> heap * res unit) : Prop :=
  forall h KF KSF o h' r, inv h -> FInv h KF KSF -> ft h o = (h', r) -> r <> RFuel -> (allok = true -> r = ROk tt) ->
    FInv h' KF KSF /\ (watched h o -> r = ROk tt /\ flag h' o = true).

Lemma each_inv : forall watched flag ft, FP watched flag ft -> (forall h o h' r, ft h o = (h', r) -> sp h h') ->
  (forall h h' o, sp h h' -> watched h o -> watched h' o) -> (forall h h' o, sp h h' -> flag h o = true -> flag h' o = true) ->
  forall l h KF KSF h' r, inv h -> FInv h KF KSF -> each ft h l = (h', r) -> r <> RFuel -> (allok = true -> r = ROk tt) ->
    FInv h' KF KSF /\ ((forall o, In (Some o) l -> watched h o) -> r = ROk tt /\ forall o, In (Some o) l -> flag h' o = true).
Proof.
  intros watched flag ft P SP Wsp Fsp. induction l as [|[o|] l IH]; intros h KF KSF h' r IV FI E NF OK; cbn [each] in E.
  - injection E as <- <-. split; [exact FI|]. intros _. split; [reflexivity|]. intros o [].
  - destruct (ft h o) as [h1 r1] eqn:E1. pose proof (SP _ _ _ _ E1) as S1.
    assert (N1 : r1 <> RFuel) by (intros ->; cbn in E; injection E as <- <-; now apply NF).
    assert (O1 : allok = true -> r1 = ROk tt).
    { intros A. rewrite (OK A) in E. destruct r1 as [[]| | |]; cbn in E; congruence. }
    destruct (P _ _ _ _ _ _ IV FI E1 N1 O1) as (FI1 & V1).
    destruct r1 as [u| | |]; cbn [rbind] in E.
    2,3,4: injection E as <- <-; split; [exact FI1|]; intros Wl; destruct (V1 (Wl o (or_introl eq_refl))); discriminate.
    pose proof (each_sp ft SP _ _ _ _ E) as S2.
    destruct (IH _ _ _ _ _ (sp_inv _ _ _ _ S1 IV) FI1 E NF OK) as (FI2 & V2). split; [exact FI2|]. intros Wl.
    destruct V2 as (-> & V2). { intros a Ha. apply (Wsp h); [exact S1|]. apply Wl. now right. }
    split; [reflexivity|]. intros a [Ha|Ha]; [injection Ha as <-|now apply V2].
    destruct (V1 (Wl o (or_introl eq_refl))) as (_ & Fo). now apply (Fsp h1).
  - destruct (IH _ _ _ _ _ IV FI E NF OK) as (FI2 & V2). split; [exact FI2|]. intros Wl.
    destruct V2 as (-> & V2). { intros a Ha. apply Wl. now right. } split; [reflexivity|]. intros a [Ha|Ha]; [discriminate|auto].
Qed.

Definition tflag (h : heap) (o : nat) := to_fin (th h o).
Definition sflag (h : heap) (s : nat) := so_fin (sh h s).

Lemma fields_loop_inv : forall ft, FP WO tflag ft -> (forall h o h' r, ft h o = (h', r) -> sp h h') ->
  forall c h KF KSF s n h' r, inv h -> FInv h KF KSF -> KSF s -> fields_loop ft h s n c = (h', r) -> r <> RFuel -> (allok = true -> r = ROk tt) ->
    n + c = length (so_fields (sh h s)) ->
    FInv h' KF KSF /\ (WSO h s -> Forall (done h) (firstn n (so_fields (sh h s))) -> r = ROk tt /\ Forall (done h') (so_fields (sh h' s))).
Proof.
  intros ft P SP. induction c as [|c IH]; intros h KF KSF s n h' r IV FI Ks E NF OK L; cbn [fields_loop] in E.
  { injection E as <- <-. split; [exact FI|]. intros _ F. split; [reflexivity|]. rewrite firstn_all2 in F by lia. exact F. }
  destruct (nth_error (so_fields (sh h s)) n) as [f|] eqn:N; [|apply nth_error_None in N; lia].
  assert (LK : WSO h s -> exists f', finalizeField h f = ROk f').
  { intros Ws. pose proof (WSO_fields h s IV Ws) as WF. rewrite Forall_forall in WF. destruct (WF f (nth_error_In _ _ N)) as (A1 & A2 & A3).
    unfold finalizeField in *. rewrite (linked_ok h _ _ IV A1 A2) in *. destruct (finalize_field _ _ _) as [d|] eqn:Ed; [eauto|].
    destruct allok eqn:A; [specialize (OK eq_refl); subst r; discriminate|]. now destruct (A3 eq_refl). }
  destruct (finalizeField h f) as [f'| | |] eqn:FF.
  2,3,4: injection E as <- <-; split; [exact FI|]; intros Ws _; destruct (LK Ws); discriminate.
  clear LK. apply finalizeField_fstep in FF as (St & Fin).
  set (h1 := set_fields h s _) in *. assert (S1 : sp h h1) by (apply sp_set_fields; now apply (set_nth_fstep _ _ f)).
  pose proof (sp_inv _ _ _ _ S1 IV) as IV1. pose proof (FInv_set_fields h KF KSF s (firstn n (so_fields (sh h s)) ++ f' :: skipn (S n) (so_fields (sh h s))) FI Ks) as FI1. fold h1 in FI1.
  match type of E with rbind (each ?a ?b ?c) _ = _ => destruct (each a b c) as [h2 r2] eqn:E2 end.
  pose proof (each_sp ft SP _ _ _ _ E2) as S2.
  assert (N2 : r2 <> RFuel) by (intros ->; cbn in E; injection E as <- <-; now apply NF).
  assert (O2 : allok = true -> r2 = ROk tt).
  { intros A. rewrite (OK A) in E. destruct r2 as [[]| | |]; cbn in E; congruence. }
  destruct (each_inv WO tflag ft P SP WO_sp (fun h h' o S => sp_tf h h' S o) _ _ _ _ _ _ IV1 FI1 E2 N2 O2) as (FI2 & V2).
  assert (WL : WSO h s -> forall o, In (Some o) [Some (of_T f); to_K (th h1 (of_T f)); to_V (th h1 (of_T f))] -> WO h1 o).
  { intros Ws. pose proof (WSO_fields h s IV Ws) as WF. rewrite Forall_forall in WF. destruct (WF f (nth_error_In _ _ N)) as (A1 & A2 & _).
    assert (Wf : WO h1 (of_T f)) by (apply (WO_sp h); [exact S1|]; eexists; split; eauto).
    destruct (WO_links h1 _ IV1 Wf) as (B1 & B2 & _). intros o [[= <-]|[Ho|[Ho|[]]]]; auto. }
  destruct r2 as [u| | |]; cbn [rbind] in E.
  2,3,4: injection E as <- <-; split; [exact FI2|]; intros Ws _; destruct (V2 (WL Ws)); discriminate.
  assert (L2 : S n + c = length (so_fields (sh h2 s))).
  { destruct (sp_s _ _ (sp_trans _ _ _ S1 S2) s) as (_ & F2). apply Forall2_len in F2. lia. }
  destruct (IH _ _ _ _ _ _ _ (sp_inv _ _ _ _ S2 IV1) FI2 Ks E NF OK L2) as (FI3 & V3). split; [exact FI3|]. intros Ws Fd.
  apply V3; [apply (WSO_sp h1); [exact S2|]; now apply (WSO_sp h)|]. destruct (V2 (WL Ws)) as (_ & FL).
  specialize (FL (of_T f) (or_introl eq_refl)). destruct (sp_s _ _ S2 s) as (_ & F2).
  assert (E1 : so_fields (sh h1 s) = firstn n (so_fields (sh h s)) ++ f' :: skipn (S n) (so_fields (sh h s))).
  { unfold h1. cbn. now rewrite Nat.eqb_refl. }
  assert (Ln : length (firstn n (so_fields (sh h s))) = n) by (rewrite firstn_length; assert (n < length (so_fields (sh h s))) by (apply nth_error_Some; congruence); lia).
  rewrite E1 in F2. apply Forall2_app_inv_l in F2 as (a & b & Fa & Fb & Eb). rewrite Eb.
  inversion Fb as [|? g ? b' Sg Fb' Ef Eg]; subst b. pose proof (Forall2_len _ _ _ _ _ Fa) as La.
  assert (Ea : firstn (S n) (a ++ g :: b') = a ++ [g]).
  { rewrite firstn_app. rewrite firstn_all2 by lia. replace (S n - length a) with 1 by lia. reflexivity. }
  rewrite Ea. apply Forall_app. split.
  - pose proof (sp_trans _ _ _ S1 S2) as S12. clear - Fa Fd S12. induction Fa as [|x y l a Sx Fa IHl]; [constructor|]. inversion Fd; subst. constructor; [|auto].
    eapply done_sp; [exact S12|exact Sx|assumption].
  - constructor; [|constructor]. destruct Sg as (G1 & G2 & G3 & G4). split.
    + rewrite G2, G3. destruct G4 as [G4|G4]; [now rewrite G4|]. congruence.
    + rewrite G1. destruct St as (St & _). rewrite St. exact FL.
Qed.

Lemma fin_inv : forall fuel, FP WO tflag (finalizeType fuel) /\ FP WSO sflag (finalizeStruct fuel).
Proof.
  induction fuel as [|k (IHt & IHs)]; (split; intros h KF KSF o h' r IV FI E NF OK; cbn [finalizeType finalizeStruct] in E).
  1,2: injection E as <- <-; now exfalso; apply NF.
  - destruct (to_fin (th h o)) eqn:F; [injection E as <- <-; split; [exact FI|]; auto|].
    pose proof (sp_set_tfin h o) as S0. pose proof (sp_inv _ _ _ _ S0 IV) as IV0. pose proof (FInv_start_t _ _ _ o FI) as FI0.
    set (h0 := set_tfin h o true) in *.
    destruct (each (finalizeStruct k) h0 [to_S (th h o)]) as [h1 r1] eqn:E1. pose proof (each_sp _ (finS_sp k) _ _ _ _ E1) as S1.
    assert (N1 : r1 <> RFuel) by (intros ->; injection E as <- <-; now apply NF).
    assert (O1 : allok = true -> r1 = ROk tt).
    { intros A. rewrite (OK A) in E. destruct r1 as [[]| | |]; try reflexivity; discriminate. }
    destruct (each_inv WSO sflag _ IHs (finS_sp k) WSO_sp (fun h h' o S => sp_sf h h' S o) _ _ _ _ _ _ IV0 FI0 E1 N1 O1) as (FI1 & V1).
    pose proof (sp_inv _ _ _ _ S1 IV0) as IV1.
    assert (WL : WO h o -> forall s, In (Some s) [to_S (th h o)] -> WSO h0 s).
    { intros Wo s [Hs|[]]. apply (WSO_sp h); [exact S0|]. destruct (WO_links h o IV Wo) as (_ & _ & X). auto. }
    destruct r1 as [u| | |].
    2: { injection E as <- <-. assert (Nw : ~ WO h o) by (intros Wo; destruct (V1 (WL Wo)); discriminate). split; [|contradiction].
         apply FInv_reset_t; auto. intros Wo. apply Nw. destruct Wo as (t & ? & C). exists t. split; [assumption|]. now rewrite <- (sp_ct _ _ (sp_trans _ _ _ S0 S1)). }
    2: { injection E as <- <-. assert (Nw : ~ WO h o) by (intros Wo; destruct (V1 (WL Wo)); discriminate). split; [|contradiction].
         apply (FInv_end_t _ _ _ o FI1). intros Wo. exfalso. apply Nw. destruct Wo as (t & ? & C). exists t. split; [assumption|]. now rewrite <- (sp_ct _ _ (sp_trans _ _ _ S0 S1)). }
    2: now exfalso; apply N1.
    destruct (each (finalizeType k) h1 [to_V (th h1 o)]) as [h2 r2] eqn:E2. pose proof (each_sp _ (finT_sp k) _ _ _ _ E2) as S2.
    assert (N2 : r2 <> RFuel) by (intros ->; injection E as <- <-; now apply NF).
    assert (O2 : allok = true -> r2 = ROk tt).
    { intros A. rewrite (OK A) in E. destruct r2 as [[]| | |]; try reflexivity; discriminate. }
    destruct (each_inv WO tflag _ IHt (finT_sp k) WO_sp (fun h h' o S => sp_tf h h' S o) _ _ _ _ _ _ IV1 FI1 E2 N2 O2) as (FI2 & V2).
    pose proof (sp_inv _ _ _ _ S2 IV1) as IV2. pose proof (sp_trans _ _ _ S0 (sp_trans _ _ _ S1 S2)) as S.
    assert (WV : WO h o -> forall v, In (Some v) [to_V (th h1 o)] -> WO h1 v).
    { intros Wo v [Hv|[]]. assert (Wo1 : WO h1 o) by (apply (WO_sp h); [exact (sp_trans _ _ _ S0 S1)|exact Wo]). destruct (WO_links h1 o IV1 Wo1) as (_ & X & _). auto. }
    assert (BACK : WO h2 o -> WO h o).
    { intros (t & ? & C). exists t. split; [assumption|]. now rewrite <- (sp_ct _ _ S). }
    destruct r2 as [u2| | |].
    2: { injection E as <- <-. assert (Nw : ~ WO h o) by (intros Wo; destruct (V2 (WV Wo)); discriminate). split; [|contradiction].
         apply FInv_reset_t; auto. }
    2: { injection E as <- <-. assert (Nw : ~ WO h o) by (intros Wo; destruct (V2 (WV Wo)); discriminate). split; [|contradiction].
         apply (FInv_end_t _ _ _ o FI2). intros Wo. exfalso. auto. }
    2: now exfalso; apply N2.
    injection E as <- <-. split.
    + apply (FInv_end_t _ _ _ o FI2). intros Wo. apply BACK in Wo. destruct (V1 (WL Wo)) as (_ & X1). destruct (V2 (WV Wo)) as (_ & X2).
      destruct (sp_t _ _ S o) as (_ & _ & _ & T4). destruct (sp_t _ _ S2 o) as (_ & _ & T3 & _). split.
      * intros s Hs. apply (sp_sf _ _ S2). apply X1. left. congruence.
      * intros v Hv. apply X2. left. congruence.
    + intros Wo. split; [now destruct u2|]. apply (sp_tf _ _ (sp_trans _ _ _ S1 S2)). unfold h0. cbn. now rewrite Nat.eqb_refl.
  - destruct (so_fin (sh h o)) eqn:F; [injection E as <- <-; split; [exact FI|]; auto|].
    pose proof (sp_set_sfin h o) as S0. pose proof (sp_inv _ _ _ _ S0 IV) as IV0. pose proof (FInv_start_s _ _ _ o FI) as FI0.
    set (h0 := set_sfin h o true) in *.
    destruct (fields_loop (finalizeType k) h0 o 0 (length (so_fields (sh h o)))) as [h1 r1] eqn:E1. pose proof (fields_loop_sp _ (finT_sp k) _ _ _ _ _ _ E1) as S1.
    assert (N1 : r1 <> RFuel) by (intros ->; injection E as <- <-; now apply NF).
    assert (O1 : allok = true -> r1 = ROk tt).
    { intros A. rewrite (OK A) in E. destruct r1 as [[]| | |]; try reflexivity; discriminate. }
    assert (L : 0 + length (so_fields (sh h o)) = length (so_fields (sh h0 o))) by (unfold h0; cbn; now rewrite Nat.eqb_refl).
    destruct (fields_loop_inv _ IHt (finT_sp k) _ _ _ _ _ _ _ _ IV0 FI0 (or_introl eq_refl) E1 N1 O1 L) as (FI1 & V1).
    pose proof (sp_inv _ _ _ _ S1 IV0) as IV1. pose proof (sp_trans _ _ _ S0 S1) as S.
    assert (BACK : WSO h1 o -> WSO h o).
    { intros (t & ? & C). exists t. split; [assumption|]. now rewrite <- (sp_cs _ _ S). }
    assert (V : WSO h o -> r1 = ROk tt /\ Forall (done h1) (so_fields (sh h1 o))).
    { intros Wo. apply V1; [now apply (WSO_sp h)|constructor]. }
    destruct r1 as [u| | |].
    2: { injection E as <- <-. assert (Nw : ~ WSO h o) by (intros Wo; destruct (V Wo); discriminate). split; [|contradiction]. apply FInv_reset_s; auto. }
    2: { injection E as <- <-. assert (Nw : ~ WSO h o) by (intros Wo; destruct (V Wo); discriminate). split; [|contradiction].
         apply (FInv_end_s _ _ _ o FI1). intros Wo. exfalso. auto. }
    2: now exfalso; apply N1.
    injection E as <- <-. split.
    + apply (FInv_end_s _ _ _ o FI1). intros Wo. now apply V, BACK.
    + intros Wo. split; [now apply V|]. apply (sp_sf _ _ S1). unfold h0. cbn. now rewrite Nat.eqb_refl.
Qed.
End Fin.
End D.
