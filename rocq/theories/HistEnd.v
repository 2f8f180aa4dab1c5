(** Acceptance after any history, and after a history without failures. *)
From Coq Require Import Bool Lia.
From Verif Require Import Base Wire Coder MapTables Value Desc GoStr TagParse Parse StrFacts Hist HistSpec HistProofs HistInv HistFin HistMain.
Open Scope nat_scope.

Lemma raw_in : forall l fs slot w g, raw l = POk fs -> In (SField slot w g) l -> exists f, In f fs /\ f_T (pf_desc f) = gf_type g.
Proof.
  induction l as [|s l IH]; intros fs slot w g R Hin; [destruct Hin|]. cbn in R. destruct s as [slot' w' g'| |]; [|discriminate..].
  unfold raw_field in R. destruct (parseStructTag (gf_tag g')) as [p|]; [|discriminate]. destruct (raw l) as [x| |] eqn:E; try discriminate. injection R as <-.
  destruct Hin as [[= -> -> ->]|Hin]; [eexists; split; [now left|reflexivity]|].
  destruct (IH x slot w g eq_refl Hin) as (f & A & B). exists f. split; [now right|exact B].
Qed.
Lemma sort_in : forall f l, In f (sort_pfields l) <-> In f l.
Proof.
  assert (I : forall f g l, In f (insert_pfield g l) <-> f = g \/ In f l).
  { intros f g. induction l as [|x l IH]; cbn; [intuition congruence|]. destruct (_ <? _)%Z; cbn; [rewrite IH|]; intuition congruence. }
  intros f. induction l as [|x l IH]; cbn; [reflexivity|]. rewrite I, IH. intuition congruence.
Qed.
Lemma tables_same : forall x y, tables x = POk y -> x = y.
Proof.
  intros [|f x] y; cbn; [now injection 1|]. destruct (f_id (pf_desc f) <? 0)%Z; [discriminate|]. destruct (build_tables _); [now injection 1|discriminate].
Qed.
Lemma finalize_fields_map : forall l fs, finalize_fields l = Some fs <-> map (fun p => finalize_field (pf_key p) (pf_val p) (pf_desc p)) l = map Some fs.
Proof.
  induction l as [|p l IH]; intros fs; cbn.
  - split; [injection 1 as <-; reflexivity|]. destruct fs; [reflexivity|discriminate].
  - destruct (finalize_field _ _ _) as [d|]; [|split; [discriminate|destruct fs; discriminate]].
    destruct (finalize_fields l) as [r|] eqn:E.
    + split; [injection 1 as <-; cbn; f_equal; now apply IH|]. destruct fs as [|d' fs]; [discriminate|]. cbn. intros [= -> H].
      apply IH in H. now injection H as ->.
    + split; [discriminate|]. destruct fs as [|d' fs]; [discriminate|]. cbn. intros [= -> H]. apply IH in H. discriminate.
Qed.
Lemma describe_facts : forall d sd, describe d = POk sd ->
  exists l, raw_struct d = POk l /\ types_ok l /\ finalize_fields l = Some (sd_fields sd).
Proof.
  intros d sd H. unfold describe in H. destruct (parse_struct d) as [l| |] eqn:E; try discriminate. cbn [pbind] in H.
  apply parse_struct_raw in E as (A & B). exists l. repeat split; auto. destruct (finalize_fields l); [|discriminate]. now injection H as <-.
Qed.
Lemma facts_describe : forall d l fs, raw_struct d = POk l -> types_ok l -> finalize_fields l = Some fs -> exists sd, describe d = POk sd.
Proof.
  intros d l fs A B C. unfold describe. rewrite (proj2 (parse_struct_raw d l) (conj A B)). cbn [pbind]. rewrite C. eauto.
Qed.
Lemma finalize_in : forall l fs p, finalize_fields l = Some fs -> In p l ->
  exists d, finalize_field (pf_key p) (pf_val p) (pf_desc p) = Some d /\ In d fs /\ f_T d = f_T (pf_desc p).
Proof.
  intros l fs p H Hp. apply finalize_fields_map in H. apply (in_map (fun p => finalize_field (pf_key p) (pf_val p) (pf_desc p))) in Hp. rewrite H in Hp.
  apply in_map_iff in Hp as (d & E & Hd). exists d. repeat split; auto. symmetry in E. now apply finalize_field_twice in E.
Qed.
Lemma raw_struct_step : forall d l slot w g, raw_struct d = POk l -> In (SField slot w g) (steps d) -> exists p, In p l /\ f_T (pf_desc p) = gf_type g.
Proof.
  intros d l slot w g R Hin. unfold raw_struct in R. destruct (raw (steps d)) as [fs| |] eqn:E; try discriminate. cbn [pbind] in R.
  apply tables_same in R as <-. destruct (raw_in _ _ _ _ _ E Hin) as (f & A & B). exists f. split; [now apply sort_in|exact B].
Qed.

Section D.
Variable D : nat -> godecl.

Lemma needs_trans : forall i j k, needs D i j -> needs D j k -> needs D i k.
Proof. intros i j k A B. induction B; eauto using needs. Qed.
Lemma valid_field : forall i sd f k, valid D i -> describe (D i) = POk sd -> In f (sd_fields sd) -> In k (ids (f_T f)) -> valid D k.
Proof. intros i sd f k V E Hf Hk j N. apply V. eapply needs_trans; [|exact N]. eapply needs_field; eauto using needs. Qed.

Definition Wv (t : gotype) : Prop := type_ok t = true /\ forall j, In j (ids t) -> valid D j.
Lemma Wv_ptr : forall t, Wv (TPtr t) -> Wv t.
Proof. intros t (A & B). split; [destruct t; try discriminate; exact A|exact B]. Qed.
Lemma Wv_ptr' : forall t, false = false -> Wv (TPtr t) -> is_ptr t = false.
Proof. intros t _ (A & B). destruct t; try reflexivity. discriminate. Qed.
Lemma Wv_slice : forall t, Wv (TSlice t) -> Wv t.
Proof. intros t (A & B). split; auto. Qed.
Lemma Wv_map : forall k v, Wv (TMap k v) -> Wv k /\ Wv v.
Proof. intros k v (A & B). cbn in A. apply andb_true_iff in A as (A1 & A2). split; (split; [assumption|]); intros j Hj; apply B; cbn; apply in_app_iff; auto. Qed.
Lemma Wv_struct : forall i, Wv (TStruct i) -> valid D i.
Proof. intros i (_ & B). apply B. now left. Qed.
Lemma Wv_struct' : forall i, valid D i -> Wv (TStruct i).
Proof. intros i V. split; [reflexivity|]. intros j [<-|[]]. exact V. Qed.
Lemma Wv_other : Wv TOther.
Proof. split; [reflexivity|]. intros j []. Qed.
Lemma Wv_raw : forall i l p, valid D i -> raw_struct (D i) = POk l -> In p l -> Wv (f_T (pf_desc p)).
Proof.
  intros i l p V R Hp. destruct (V i (needs_self D i)) as (sd & E). destruct (describe_facts _ _ E) as (l' & R' & T & F). rewrite R in R'. injection R' as <-.
  destruct (finalize_in _ _ _ F Hp) as (d & _ & Hd & Ed). split.
  - unfold types_ok in T. rewrite Forall_forall in T. now apply T.
  - intros j Hj. rewrite <- Ed in Hj. eapply valid_field; eauto.
Qed.
Lemma Wv_ok : forall i, false = false -> valid D i -> exists l, raw_struct (D i) = POk l.
Proof. intros i _ V. destruct (V i (needs_self D i)) as (sd & E). destruct (describe_facts _ _ E) as (l & R & _). eauto. Qed.
Lemma Wv_steps : forall i, valid D i -> Forall (fun s => match s with SField _ _ g => Wv (gf_type g) | _ => True end) (steps (D i)).
Proof.
  intros i V. destruct (Wv_ok i eq_refl V) as (l & R). apply Forall_forall. intros [slot w g| |] H; trivial.
  destruct (raw_struct_step _ _ _ _ _ R H) as (p & A & <-). eapply Wv_raw; eauto.
Qed.
Lemma Wv_fin : forall i l p, false = false -> valid D i -> raw_struct (D i) = POk l -> In p l -> finalize_field (pf_key p) (pf_val p) (pf_desc p) <> None.
Proof.
  intros i l p _ V R Hp. destruct (V i (needs_self D i)) as (sd & E). destruct (describe_facts _ _ E) as (l' & R' & T & F). rewrite R in R'. injection R' as <-.
  destruct (finalize_in _ _ _ F Hp) as (d & -> & _). discriminate.
Qed.

Definition vstate := state D Wv (valid D).
Lemma history_state : forall h, history D h -> vstate h.
Proof.
  induction 1 as [|h fuel t h' r H IH E N].
  { eapply (state_empty D false); eauto using Wv_ptr, Wv_ptr', Wv_slice, Wv_map, Wv_struct, Wv_struct', Wv_other, Wv_raw, Wv_ok, Wv_steps, Wv_fin. }
  eapply (get_state D false Wv (valid D)); eauto using Wv_ptr, Wv_ptr', Wv_slice, Wv_map, Wv_struct, Wv_struct', Wv_other, Wv_raw, Wv_ok, Wv_steps, Wv_fin.
  discriminate.
Qed.

(** [done]: finalized descriptors are right *)
Lemma done_fields : forall h l fs fs', Forall2 (same_field h) fs l -> Forall (done h) fs -> finalize_fields l = Some fs' ->
  map (fun f => pf_desc (of_p f)) fs = fs'.
Proof.
  intros h l fs fs' F. revert fs'. induction F as [|f p fs l (A1 & A2 & A3 & A4) F IH]; intros fs' Dn E; cbn in E; [now injection E as <-|].
  inversion Dn as [|? ? (D1 & D2) Dn']; subst. rewrite A1, A2 in D1.
  destruct (finalize_field (pf_key p) (pf_val p) (pf_desc p)) as [d|] eqn:Fp; [|discriminate].
  destruct (finalize_fields l) as [r|]; [|discriminate]. injection E as <-. cbn. f_equal; [|now apply IH].
  destruct A3 as [A3|A3]; [|congruence]. rewrite A3 in D1. congruence.
Qed.

Lemma state_faithful : forall h s i, vstate h -> valid D i -> cs h i = Some s -> so_fin (sh h s) = true -> faithful D h s i.
Proof.
  intros h s i [IV FI CA] V C F.
  exists (fun s i => valid D i /\ cs h i = Some s /\ so_fin (sh h s) = true), (fun o t => Wv t /\ ct h t = Some o /\ to_fin (th h o) = true).
  split; [auto|]. clear s i V C F. split.
  - intros s i (V & C & F). destruct (V i (needs_self D i)) as (sd & E). exists sd. split; [exact E|].
    destruct (describe_facts _ _ E) as (l & R & T & Fin). destruct (inv_s _ _ _ _ _ _ IV i s V C) as (_ & _ & [[]|(l' & R' & F2)]).
    rewrite R in R'. injection R' as <-. destruct (fi_s _ _ _ _ _ FI s (ex_intro _ i (conj V C)) F) as [[]|Dn]. split; [now apply (done_fields h l)|].
    assert (A : forall p, In p l -> Wv (f_T (pf_desc p))) by (intros p Hp; eapply Wv_raw; eauto). clear - F2 Dn A.
    revert F2 Dn. generalize (so_fields (sh h s)). revert A.
    induction l as [|p l IH]; intros A fs F2 Dn; inversion F2 as [|f ? fs' ? (B1 & B2 & B3 & B4) F2']; subst; constructor; inversion Dn as [|? ? (D1 & D2) Dn']; subst.
    + assert (Et : f_T (pf_desc (of_p f)) = f_T (pf_desc p)) by (destruct B3 as [->|B3]; [reflexivity|now apply finalize_field_twice in B3]).
      rewrite Et. split; [apply A; now left|]. auto.
    + apply IH; auto. intros q Hq. apply A. now right.
  - intros o t (Wt & C & F). destruct (inv_t _ _ _ _ _ _ IV t o Wt C) as (_ & Rt & [[]|K]). split; [exact Rt|].
    destruct (fi_t _ _ _ _ _ FI o (ex_intro _ t (conj Wt C)) F) as [[]|(F1 & F2)].
    destruct t as [kd| | |j|t|t|t1 t2|alts|]; trivial; cbn in K.
    + destruct K as (x & Eo & Cx). rewrite Eo in *. cbn in *. exists x. split; [reflexivity|]. split; [now apply Wv_struct|]. auto.
    + destruct K as (_ & v & Eo & Cv). rewrite Eo in *. cbn in *. exists v. split; [reflexivity|]. split; [now apply Wv_ptr|]. auto.
    + destruct K as (v & Eo & Cv). rewrite Eo in *. cbn in *. exists v. split; [reflexivity|]. split; [now apply Wv_slice|]. auto.
    + destruct K as (a & b & Eo & Ca & Cb). rewrite Eo in *. cbn in *. destruct (Wv_map _ _ Wt) as (W1 & W2). exists a, b. repeat split; auto; try apply W2.
      now destruct (inv_t _ _ _ _ _ _ IV t1 a W1 Ca).
Qed.

Theorem valid_accepted : forall U i t h fuel, valid D i -> enough D U i -> strip t = TStruct i -> history D h -> 2 * length U < fuel ->
  exists h' s, GetOrParse D fuel h t = (h', ROk s) /\ faithful D h' s i.
Proof.
  intros U i t h fuel V (U1 & U2 & U3) Et H L. pose proof (history_state h H) as ST.
  destruct (GetOrParse D fuel h t) as [h' r] eqn:E.
  assert (N : r <> RFuel).
  { eapply (get_total D false Wv (valid D)) with (U := U); eauto using Wv_ptr, Wv_ptr', Wv_slice, Wv_map, Wv_struct, Wv_struct', Wv_other, Wv_raw, Wv_ok, Wv_steps, Wv_fin.
    - intros u Hu. exact (U3 _ Hu).
    - intros u Hu. exact (U3 _ Hu).
    - intros u v Hu. exact (U3 _ Hu).
    - intros j Hj Vj. apply Forall_forall. intros [slot w g| |] Hs; trivial. destruct (Vj j (needs_self D j)) as (sd & Ed). destruct (describe_facts _ _ Ed) as (l & R & T & F).
      destruct (raw_struct_step _ _ _ _ _ R Hs) as (p & A & <-). destruct (finalize_in _ _ _ F A) as (d & _ & Hd & <-). exact (U3 _ Hj sd d Ed Hd).
    - intros j l p Hj Vj R Hp. destruct (Vj j (needs_self D j)) as (sd & Ed). destruct (describe_facts _ _ Ed) as (l' & R' & T & F). rewrite R in R'. injection R' as <-.
      destruct (finalize_in _ _ _ F Hp) as (d & _ & Hd & <-). exact (U3 _ Hj sd d Ed Hd). }
  destruct (get_state D false Wv (valid D) Wv_ptr Wv_ptr' Wv_slice Wv_map Wv_struct Wv_struct' Wv_other Wv_steps Wv_raw Wv_ok Wv_fin _ _ _ _ _ ST E N) as (ST' & X); [discriminate|].
  destruct (X i Et V) as (s & -> & C & F). exists h', s. split; [reflexivity|]. now apply state_faithful.
Qed.

(** * Histories without failures *)
Definition all {A} : A -> Prop := fun _ => True.
Lemma all_map : forall k v : gotype, all (TMap k v) -> all k /\ all v.
Proof. split; exact I. Qed.
Lemma all_steps : forall i : nat, all i -> Forall (fun s => match s with SField _ _ g => all (gf_type g) | _ => True end) (steps (D i)).
Proof. intros i _. apply Forall_forall. intros [] _; exact I. Qed.
Definition cstate := state D all all.
Lemma get_clean : forall h fuel t h' s, cstate h -> GetOrParse D fuel h t = (h', ROk s) ->
  cstate h' /\ forall i, strip t = TStruct i -> cs h' i = Some s /\ so_fin (sh h' s) = true.
Proof.
  intros h fuel t h' s ST E.
  assert (X : state D all all h' /\ (forall i, strip t = TStruct i -> all i -> exists s0, ROk s = ROk s0 /\ cs h' i = Some s0 /\ so_fin (sh h' s0) = true)).
  { eapply (get_state D true all all) with (4 := all_map) (8 := all_steps); eauto; try (intros; exact I); try discriminate. }
  destruct X as (A & B). split; [exact A|]. intros i Ei. destruct (B i Ei I) as (s' & [= <-] & C). exact C.
Qed.
Lemma successes_state : forall h, successes D h -> cstate h.
Proof.
  induction 1 as [|h fuel t h' s H IH E].
  { eapply (state_empty D true all all); eauto using all_map, all_steps; try (intros; exact I); try discriminate. } now apply (get_clean h fuel t h' s).
Qed.

Lemma clean_type_ok : forall h, cstate h -> forall t o, ct h t = Some o -> type_ok t = true.
Proof.
  intros h [IV FI CA]. induction t as [k| | |i|t IH|t IH|k v IHk IHv|l IH|] using gotype_ind'; intros o C; try reflexivity.
  all: destruct (inv_t _ _ _ _ _ _ IV _ o I C) as (_ & _ & [[]|K]); cbn in K.
  - destruct K as (P & v & _ & Cv). pose proof (IH v Cv) as T. destruct t; try discriminate; exact T.
  - destruct K as (v & _ & Cv). exact (IH v Cv).
  - destruct K as (a & b & _ & Ca & Cb). cbn. now rewrite (IHk a Ca), (IHv b Cb).
Qed.
Lemma shape_describe : forall h i s, cstate h -> cs h i = Some s -> so_fin (sh h s) = true ->
  exists l sd, raw_struct (D i) = POk l /\ describe (D i) = POk sd /\ finalize_fields l = Some (sd_fields sd) /\
    Forall2 (same_field h) (so_fields (sh h s)) l /\ Forall (done h) (so_fields (sh h s)).
Proof.
  intros h i s ST C F. pose proof ST as [IV FI CA]. destruct (inv_s _ _ _ _ _ _ IV i s I C) as (_ & _ & [[]|(l & R & F2)]).
  destruct (fi_s _ _ _ _ _ FI s (ex_intro _ i (conj I C)) F) as [[]|Dn].
  assert (T : types_ok l).
  { clear R Dn. induction F2 as [|f p fs l (A1 & A2 & A3 & A4) F2 IH]; constructor; [|exact IH]. now apply (clean_type_ok h ST _ (of_T f)). }
  assert (FF : exists fs, finalize_fields l = Some fs).
  { clear R T. revert Dn. induction F2 as [|f p fs l (A1 & A2 & A3 & A4) F2 IH]; intros Dn; [now exists []|]. inversion Dn as [|? ? (D1 & D2) Dn']; subst.
    destruct (IH Dn') as (r & Er). cbn. rewrite Er. rewrite A1, A2 in D1. destruct A3 as [A3|A3]; [rewrite A3 in D1|]; [rewrite D1|rewrite A3]; eauto. }
  destruct FF as (fs & Ef). destruct (facts_describe _ _ _ R T Ef) as (sd & E). exists l, sd. repeat split; auto.
  destruct (describe_facts _ _ E) as (l' & R' & _ & F'). rewrite R in R'. injection R' as <-. exact F'.
Qed.
Lemma clean_ids : forall h, cstate h -> forall t o, ct h t = Some o -> to_fin (th h o) = true -> keys_plain t = true ->
  forall j, In j (ids t) -> exists s, cs h j = Some s /\ so_fin (sh h s) = true.
Proof.
  intros h [IV FI CA]. induction t as [k| | |i|t IH|t IH|k v IHk IHv|l IH|] using gotype_ind'; intros o C F P j Hj; try (now destruct Hj).
  all: destruct (inv_t _ _ _ _ _ _ IV _ o I C) as (_ & _ & [[]|K]); cbn in K.
  all: destruct (fi_t _ _ _ _ _ FI o (ex_intro _ _ (conj I C)) F) as [[]|(F1 & F2)].
  - destruct K as (s & Eo & Cs). rewrite Eo in F1. destruct Hj as [<-|[]]. exists s. auto.
  - destruct K as (_ & v & Eo & Cv). rewrite Eo in F2. apply (IH v); auto.
  - destruct K as (v & Eo & Cv). rewrite Eo in F2. apply (IH v); auto.
  - destruct K as (a & b & Eo & Ca & Cb). rewrite Eo in F2. cbn in P, Hj. apply andb_true_iff in P as (P1 & P2). destruct (ids k); [|discriminate]. apply (IHv b); auto.
Qed.
Hypothesis plain : forall i sd f, describe (D i) = POk sd -> In f (sd_fields sd) -> keys_plain (f_T f) = true.
Lemma clean_needs : forall h i s, cstate h -> cs h i = Some s -> so_fin (sh h s) = true ->
  forall j, needs D i j -> exists s', cs h j = Some s' /\ so_fin (sh h s') = true.
Proof.
  intros h i s ST C F j N. induction N as [i|i j sd f k N IH E Hf Hk]; [eauto|]. destruct (IH C) as (s' & C' & F'). clear IH N.
  destruct (shape_describe h j s' ST C' F') as (l & sd' & R & E' & Fin & F2 & Dn). rewrite E in E'. injection E' as <-.
  pose proof (done_fields h l _ _ F2 Dn Fin) as M. assert (P : keys_plain (f_T f) = true) by (eapply plain; eauto). rewrite <- M in Hf. apply in_map_iff in Hf as (g & <- & Hg).
  rewrite Forall_forall in Dn. destruct (Dn g Hg) as (_ & Fg).
  assert (Cg : ct h (f_T (pf_desc (of_p g))) = Some (of_T g)).
  { clear - F2 Hg. induction F2 as [|x p fs l (A1 & A2 & A3 & A4) F2 IH]; [destruct Hg|]. destruct Hg as [->|Hg]; [|auto].
    destruct A3 as [->|A3]; [exact A4|]. destruct (finalize_field_twice _ _ _ _ A3) as (_ & ->). exact A4. }
  exact (clean_ids h ST _ _ Cg Fg P k Hk).
Qed.
Lemma clean_valid : forall h i s, cstate h -> cs h i = Some s -> so_fin (sh h s) = true -> valid D i.
Proof.
  intros h i s ST C F j N. destruct (clean_needs h i s ST C F j N) as (s' & C' & F'). destruct (shape_describe h j s' ST C' F') as (l & sd & _ & E & _). eauto.
Qed.

Lemma successes_history : forall h, successes D h -> history D h.
Proof. induction 1; [constructor|]. econstructor; eauto. discriminate. Qed.

Theorem clean_accepted : forall i t h fuel h' r, strip t = TStruct i -> successes D h -> GetOrParse D fuel h t = (h', r) -> r <> RFuel ->
  ((exists s, r = ROk s) <-> valid D i).
Proof.
  intros i t h fuel h' r Et H E N. split.
  - intros (s & ->). destruct (get_clean h fuel t h' s (successes_state h H) E) as (ST & X). destruct (X i Et) as (C & F). now apply (clean_valid h' i s).
  - intros V. destruct (get_state D false Wv (valid D) Wv_ptr Wv_ptr' Wv_slice Wv_map Wv_struct Wv_struct' Wv_other Wv_steps Wv_raw Wv_ok Wv_fin _ _ _ _ _ (history_state h (successes_history h H)) E N) as (ST' & X); [discriminate|].
    destruct (X i Et V) as (s & -> & _). eauto.
Qed.
End D.
