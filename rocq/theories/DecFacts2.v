(** Consequences of the record-by-record description of decoding. *)
From Verif Require Import Base Wire WireSpec WireProofs WireConsume WireFacts Coder MapTables Value WireVal Desc MsgSpec ValFacts ScalarProofs Encoder EncProofs EncFacts Decoder DescProofs DecSpec DecScalar DecMap DecProofs DecFacts.
From Coq Require Import Lia ZifyBool ZifyNat ZifyN Init.Byte.
Open Scope N_scope.

Lemma Forall2_impl : forall {A B} (P Q : A -> B -> Prop) l l', (forall a b, P a b -> Q a b) -> Forall2 P l l' -> Forall2 Q l l'.
Proof. intros A B P Q l l' H F. induction F; constructor; auto. Qed.

Lemma Forall2_length : forall {A B} (P : A -> B -> Prop) l l', Forall2 P l l' -> length l = length l'.
Proof. intros A B P l l' F. induction F; cbn; auto. Qed.

Section Facts.
Variable E : env.
Hypothesis WF : wf_env E.

Ltac step_struct ST := let s1 := fresh "s1" in let u1 := fresh "u1" in
  match type of ST with step _ _ _ _ _ ?v => assert (exists s1 u1, v = VStruct s1 u1) as (s1 & u1 & ->)
    by (inversion ST; subst; eauto) end.

(** Success, for a given split into records. *)
Lemma ok_steps : forall P id b s u v' rs, wt E (TStruct id) (VStruct s u) -> wire_records b rs ->
  Unmarshal E P b (APtr id (Some (VStruct s u))) = DOk v' tt ->
  exists s' u', v' = VStruct s' u' /\ wt E (TStruct id) v' /\
    steps E 1000 id rs (VStruct s (if sd_unknown (E id) then option_map (fun _ => []) u else u)) (VStruct s' u').
Proof.
  intros P id b s u v' rs W R H. pose proof H as H0. apply (Unmarshal_known E WF P id b _ v' rs) in H; try assumption.
  cbn [drop_unknown] in H. destruct (steps_struct _ _ _ _ _ _ _ H) as (s' & u' & ->). exists s', u'. split; [reflexivity|].
  split; [|assumption].
  destruct (Unmarshal_total E WF P id b _ W) as [(v & X & WX)|(v & e & X)]; congruence.
Qed.

(** ** C11 *)
Lemma steps_unknown : forall D id rs s u s' u', steps E D id rs (VStruct s u) (VStruct s' u') ->
  (if sd_unknown (E id)
   then unk_bytes u' = unk_bytes u ++ concat (map w_raw (filter (fun r => negb (known E id r)) rs))
   else u' = u).
Proof.
  intros D id rs. induction rs as [|r rs IH]; intros s u s' u' S; inversion S; subst.
  - destruct (sd_unknown (E id)); [cbn; now rewrite app_nil_r|reflexivity].
  - match goal with H : step _ _ _ _ _ _ |- _ => rename H into ST end. step_struct ST.
    match goal with H : steps _ _ _ _ _ _ |- _ => apply IH in H end.
    cbn [filter]. inversion ST; subst.
    + match goal with K : known _ _ _ = false |- _ => rewrite K end. cbn [negb].
      destruct (sd_unknown (E id)); [|assumption]. cbn [map concat]. rewrite app_assoc.
      destruct u; assumption.
    + replace (known E id r) with true; [cbn [negb]; assumption|]. symmetry. apply known_true. eauto.
Qed.
(** The declared fields do not depend on unknown records nor on stored unknown bytes. *)
Lemma steps_known_only : forall D id rs s u s' u', steps E D id rs (VStruct s u) (VStruct s' u') ->
  forall w, steps E D id (filter (known E id) rs) (VStruct s w) (VStruct s' w).
Proof.
  intros D id rs. induction rs as [|r rs IH]; intros s u s' u' S w; inversion S; subst; [constructor|].
  match goal with H : step _ _ _ _ _ _ |- _ => rename H into ST end. step_struct ST.
  match goal with H : steps _ _ _ _ _ _ |- _ => apply IH with (w := w) in H end.
  cbn [filter]. inversion ST; subst.
  - match goal with K : known _ _ _ = false |- _ => rewrite K end. assumption.
  - replace (known E id r) with true; [|symmetry; apply known_true; eauto].
    econstructor; [eapply st_known; eassumption|assumption].
Qed.
Lemma Forall_filter : forall {A} (P : A -> Prop) f l, Forall P l -> Forall P (filter f l).
Proof. intros A P f l F. induction F; cbn; [constructor|]. destruct (f x); auto. Qed.

Lemma unknown_preserved : forall P id b s u v' rs, wt E (TStruct id) (VStruct s u) -> wire_records b rs ->
  Unmarshal E P b (APtr id (Some (VStruct s u))) = DOk v' tt ->
  exists s' u', v' = VStruct s' u' /\
    (if sd_unknown (E id) then unk_bytes u' = concat (map w_raw (filter (fun r => negb (known E id r)) rs)) else u' = u) /\
    exists u'', Unmarshal E P (concat (map w_raw (filter (known E id) rs))) (APtr id (Some (VStruct s u))) = DOk (VStruct s' u'') tt.
Proof.
  intros P id b s u v' rs W R H. destruct (ok_steps _ _ _ _ _ _ _ W R H) as (s' & u' & -> & _ & S).
  exists s', u'. split; [reflexivity|]. split.
  - apply steps_unknown in S. destruct (sd_unknown (E id)); [|assumption]. rewrite S. now destruct u.
  - eexists. eapply Unmarshal_known; [assumption|assumption| |].
    + split; [|reflexivity]. apply Forall_filter. apply R.
    + cbn [drop_unknown]. eapply steps_known_only; exact S.
Qed.

(** ** C12 *)
Lemma untouched : forall P id b s u v' rs, wt E (TStruct id) (VStruct s u) -> wire_records b rs ->
  Unmarshal E P b (APtr id (Some (VStruct s u))) = DOk v' tt ->
  exists s' u', v' = VStruct s' u' /\
    forall i, (forall r, In r rs -> ~ touches E id r i) -> nth_error s' i = nth_error s i.
Proof.
  intros P id b s u v' rs W R H. destruct (ok_steps _ _ _ _ _ _ _ W R H) as (s' & u' & -> & _ & S).
  exists s', u'. split; [reflexivity|]. intros i NT. eapply steps_other; eassumption.
Qed.

(** ** C13 *)
Lemma reads_indep : forall D raw tag t typ p x x', by_value t = false -> reads E D raw tag t typ p x x' ->
  forall y, reads E D raw tag t typ p y x'.
Proof. intros D raw tag t typ p x x' B R y. inversion R; subst; try discriminate; now constructor. Qed.

Lemma last_wins : forall P id b s u v' rs1 r rs2 f, wt E (TStruct id) (VStruct s u) -> wire_records b (rs1 ++ r :: rs2) ->
  Unmarshal E P b (APtr id (Some (VStruct s u))) = DOk v' tt ->
  In f (sd_fields (E id)) -> f_oneof f = None -> f_rep f = false -> by_value (f_T f) = false ->
  field_num f = w_num r -> (forall r', In r' rs2 -> w_num r' <> field_num f) ->
  exists s' u' x', v' = VStruct s' u' /\ nth_error s' (f_slot f) = Some x' /\
    forall y, reads E 1000 false (f_tag f) (f_T f) (w_typ r) (w_data r) y x'.
Proof.
  intros P id b s u v' rs1 r rs2 f W R H HI HO HR HB HN NL. destruct (ok_steps _ _ _ _ _ _ _ W R H) as (s' & u' & -> & _ & S).
  destruct (steps_last E WF _ _ _ _ _ _ _ _ _ f S HI HN) as (x & x' & N' & M).
  - intros r' I' (g & HIg & Ng & Sg). apply (NL r' I'). rewrite <- Ng. f_equal.
    destruct (wf_slots _ _ (WF id) f g HI HIg (eq_sym Sg)) as [<-|(w & w' & X & _)]; [reflexivity|congruence].
  - exists s', u', x'. repeat split; [assumption|]. inversion M; subst; try congruence.
    + now apply reads_indep with (x := x).
    + pose proof (wf_supported E WF id f HI) as SP. unfold supported in SP.
      match goal with H : f_T f = _ |- _ => rewrite H in SP end. rewrite HR in SP. discriminate.
    + pose proof (wf_supported E WF id f HI) as SP. unfold supported in SP.
      match goal with H : f_T f = _ |- _ => rewrite H in SP end. rewrite HR in SP. discriminate.
    + pose proof (wf_supported E WF id f HI) as SP. unfold supported in SP.
      match goal with H : f_T f = _ |- _ => rewrite H in SP end. rewrite HR in SP. discriminate.
Qed.

(** ** C14, C42 *)
(** Repeated fields own their slot. *)
Lemma own_slot : forall id f g, In f (sd_fields (E id)) -> In g (sd_fields (E id)) -> f_oneof f = None ->
  f_slot g = f_slot f -> g = f.
Proof.
  intros id f g HI HG HO HS. destruct (wf_slots _ _ (WF id) g f HG HI HS) as [X|(w & w' & _ & X & _)]; [assumption|congruence].
Qed.
Lemma not_touches : forall id f r, In f (sd_fields (E id)) -> f_oneof f = None -> of_field f r = false ->
  ~ touches E id r (f_slot f).
Proof.
  intros id f r HI HO HF (g & HG & HN & HS). assert (g = f) by (eapply own_slot; eassumption). subst g.
  unfold of_field in HF. apply N.eqb_neq in HF. contradiction.
Qed.

(** Capacity after appending [n] elements one by one. *)
Fixpoint grown (len c n : nat) : nat :=
  match n with
  | O => c
  | S n => grown (S len) (if Nat.eqb c 0 then 8 else if Nat.eqb len c then 2 * c else c)%nat n
  end.
Lemma next_elem_cap : forall t e sp x r y, next_elem E t e sp = (x, r) ->
  cap (VSlice (e ++ [y]) r) = (if Nat.eqb (cap (VSlice e sp)) 0 then 8 else if Nat.eqb (length e) (cap (VSlice e sp)) then 2 * cap (VSlice e sp) else cap (VSlice e sp))%nat.
Proof.
  intros t e sp x r y H. unfold next_elem in H. cbn [cap]. rewrite app_length. cbn [length].
  destruct sp as [|a sp].
  - injection H as <- <-. rewrite repeat_length. cbn [length]. destruct e as [|b e]; [reflexivity|]. cbn [length].
    replace (Nat.eqb (S (length e) + 0) 0) with false by (symmetry; apply Nat.eqb_neq; lia).
    rewrite Nat.add_0_r, Nat.eqb_refl. lia.
  - injection H as <- <-. cbn [length].
    replace (Nat.eqb (length e + S (length sp)) 0) with false by (symmetry; apply Nat.eqb_neq; lia).
    replace (Nat.eqb (length e) (length e + S (length sp))) with false by (symmetry; apply Nat.eqb_neq; lia). lia.
Qed.
Lemma grown_spec : forall n len c, (1 <= n)%nat -> (len <= c)%nat ->
  let c0 := (if Nat.eqb c 0 then 8 else c)%nat in
  exists j, grown len c n = (c0 * 2 ^ j)%nat /\ (len + n <= grown len c n)%nat /\ (0 < j -> c0 * 2 ^ (j - 1) < len + n)%nat.
Proof.
  induction n as [|n IH]; intros len c N1 L c0; [lia|]. cbn [grown].
  set (c1 := (if Nat.eqb c 0 then 8 else if Nat.eqb len c then 2 * c else c)%nat).
  assert (C1 : c1 = c0 /\ (S len <= c1)%nat \/ c1 = (2 * c0)%nat /\ len = c0 /\ (S len <= c1)%nat).
  { subst c0 c1. destruct (Nat.eqb_spec c 0); [lia|]. destruct (Nat.eqb_spec len c); lia. }
  assert (NZ : Nat.eqb c1 0 = false) by (apply Nat.eqb_neq; lia).
  destruct n as [|n].
  - cbn [grown]. destruct C1 as [[-> Hl]|[-> [Hl Hs]]].
    + exists O. cbn. lia.
    + exists 1%nat. cbn. lia.
  - destruct (IH (S len) c1) as (j & G & A & B); [lia|lia|]. rewrite NZ in G, B.
    destruct C1 as [[X Hl]|[X [Hl Hs]]].
    + exists j. rewrite X in *. repeat split; try assumption; lia.
    + exists (S j). rewrite G, X. split; [cbn; lia|]. split; [rewrite G, X in A; lia|]. intros _. rewrite X in B.
      destruct j as [|j]; [cbn; lia|]. specialize (B ltac:(lia)). cbn [Nat.sub] in *. rewrite Nat.sub_0_r in *. cbn [Nat.pow]. lia.
Qed.

Lemma steps_list : forall D id f t, In f (sd_fields (E id)) -> f_oneof f = None -> f_T f = TSlice t ->
  forall rs s u s' u' e sp, steps E D id rs (VStruct s u) (VStruct s' u') ->
  nth_error s (f_slot f) = Some (VSlice e sp) ->
  (forall r, In r rs -> of_field f r = true -> w_typ r <> 2 \/ f_packed f = false) ->
  exists xs sp', nth_error s' (f_slot f) = Some (VSlice (e ++ xs) sp') /\
    Forall2 (fun r x => exists x0, (x0 = unset E t \/ In x0 sp) /\
               reads E D false (f_tag f) t (w_typ r) (w_data r) x0 x) (filter (of_field f) rs) xs /\
    (forall y, In y sp' -> y = unset E t \/ In y sp) /\
    cap (VSlice (e ++ xs) sp') = grown (length e) (cap (VSlice e sp)) (length (filter (of_field f) rs)).
Proof.
  intros D id f t HI HO HT rs. induction rs as [|r rs IH]; intros s u s' u' e sp S NS TY; inversion S; subst.
  - exists [], sp. rewrite app_nil_r. split; [assumption|]. split; [constructor|]. split; [auto|reflexivity].
  - match goal with H : step _ _ _ _ _ _ |- _ => rename H into ST end. step_struct ST.
    match goal with H : steps _ _ _ rs _ _ |- _ => rename H into SS end. cbn [filter].
    destruct (of_field f r) eqn:OF.
    + destruct (step_same E WF _ _ _ _ _ _ _ f ST HI) as (x & x' & N1 & N2 & M); [now apply N.eqb_eq|].
      rewrite NS in N1. injection N1 as <-.
      assert (exists y0 y r', x' = VSlice (e ++ [y]) r' /\ next_elem E t e sp = (y0, r') /\
        reads E D false (f_tag f) t (w_typ r) (w_data r) y0 y) as (y0 & y & r' & -> & NE & RD).
      { inversion M; subst; try congruence.
        - match goal with H : reads _ _ _ _ _ _ _ _ _ |- _ => rewrite HT in H; inversion H end.
        - destruct (TY r) as [X|X]; [now left|assumption|congruence|congruence].
        - match goal with H : f_T f = TSlice ?t0 |- _ => assert (t0 = t) by congruence; subst t0 end. eauto 8. }
      destruct (IH s1 u1 s' u' (e ++ [y]) r' SS N2) as (xs & sp' & NX & F & SPI & CP);
        [intros r0 I0; apply TY; now right|].
      assert (SUB : (y0 = unset E t \/ In y0 sp) /\ forall z, In z r' -> z = unset E t \/ In z sp).
      { unfold next_elem in NE. destruct sp as [|a sp]; injection NE as <- <-.
        - split; [now left|]. intros z Hz. left. now apply repeat_spec in Hz.
        - split; [right; now left|]. intros z Hz. right. now right. }
      exists (y :: xs), sp'. rewrite <- app_assoc in NX, CP. cbn [app] in NX, CP. split; [assumption|]. split; [|split].
      * constructor; [exists y0; split; [exact (proj1 SUB)|assumption]|]. eapply Forall2_impl; [|exact F].
        intros r0 x0 (z & [Z|Z] & RZ); exists z; (split; [|assumption]); [now left|now apply (proj2 SUB)].
      * intros z Hz. apply SPI in Hz as [Hz|Hz]; [now left|now apply (proj2 SUB)].
      * rewrite CP. cbn [length grown]. rewrite app_length. cbn [length]. rewrite Nat.add_1_r.
        now rewrite (next_elem_cap t e sp y0 r' y NE).
    + destruct (IH s1 u1 s' u' e sp SS) as (xs & sp' & NX & F & SPI & CP).
      * rewrite <- NS. eapply step_other; [exact ST|]. now apply not_touches.
      * intros r0 I0; apply TY; now right.
      * exists xs, sp'. auto.
Qed.

Lemma repeated_appends : forall P id b s u v' rs f t e sp, wt E (TStruct id) (VStruct s u) -> wire_records b rs ->
  Unmarshal E P b (APtr id (Some (VStruct s u))) = DOk v' tt ->
  In f (sd_fields (E id)) -> f_T f = TSlice t -> nth_error s (f_slot f) = Some (VSlice e sp) ->
  (forall r, In r rs -> of_field f r = true -> w_typ r <> 2 \/ f_packed f = false) ->
  exists s' u' xs sp', v' = VStruct s' u' /\ nth_error s' (f_slot f) = Some (VSlice (e ++ xs) sp') /\
    Forall2 (fun r x => exists x0, (x0 = unset E t \/ by_value t = true /\ In x0 sp) /\
               reads E 1000 false (f_tag f) t (w_typ r) (w_data r) x0 x) (filter (of_field f) rs) xs /\
    (xs <> [] -> let c := cap (VSlice e sp) in let c' := cap (VSlice (e ++ xs) sp') in
       let c0 := (if Nat.eqb c 0 then 8 else c)%nat in
       exists j, (c' = c0 * 2 ^ j /\ (0 < j -> c0 * 2 ^ (j - 1) < length (e ++ xs)))%nat).
Proof.
  intros P id b s u v' rs f t e sp W R H HI HT NS TY. destruct (ok_steps _ _ _ _ _ _ _ W R H) as (s' & u' & -> & _ & S).
  assert (HO : f_oneof f = None).
  { destruct (supported_cases f (wf_supported E WF id f HI)) as [(_ & _ & X)|[[X _]|[X _]]]; auto.
    rewrite HT in X. discriminate X. }
  destruct (steps_list 1000 id f t HI HO HT _ _ _ _ _ _ _ S NS TY) as (xs & sp' & N' & F & _ & CP).
  exists s', u', xs, sp'. split; [reflexivity|]. split; [assumption|]. split.
  - eapply Forall2_impl; [|exact F]. intros r x (x0 & [X|X] & RD).
    + exists x0. auto.
    + destruct (by_value t) eqn:B.
      * exists x0. auto.
      * exists (unset E t). split; [now left|]. eapply reads_indep; eassumption.
  - intros NE c c' c0. assert (L : length (filter (of_field f) rs) = length xs) by (eapply Forall2_length; exact F).
    destruct (grown_spec (length xs) (length e) c) as (j & G & _ & B).
    + destruct xs; [congruence|cbn; lia].
    + subst c. cbn. lia.
    + exists j. subst c' c0. rewrite CP, L. rewrite app_length. auto.
Qed.

(** ** C15 *)
Lemma oneof_last : forall P id b s u v' rs1 r rs2 f w, wt E (TStruct id) (VStruct s u) -> wire_records b (rs1 ++ r :: rs2) ->
  Unmarshal E P b (APtr id (Some (VStruct s u))) = DOk v' tt ->
  In f (sd_fields (E id)) -> f_oneof f = Some w -> field_num f = w_num r ->
  (forall r', In r' rs2 -> ~ touches E id r' (f_slot f)) ->
  exists s' u' x', v' = VStruct s' u' /\ nth_error s' (f_slot f) = Some (VIface (Some (w, Some x'))) /\
    reads E 1000 false (f_tag f) (f_T f) (w_typ r) (w_data r) (unset E (f_T f)) x'.
Proof.
  intros P id b s u v' rs1 r rs2 f w W R H HI HO HN NL. destruct (ok_steps _ _ _ _ _ _ _ W R H) as (s' & u' & -> & _ & S).
  destruct (steps_last E WF _ _ _ _ _ _ _ _ _ f S HI HN NL) as (x & x' & N' & M).
  inversion M; subst; try congruence.
  match goal with H : f_oneof f = Some ?a |- _ => assert (a = w) by congruence; subst a end. eauto 8.
Qed.

(** ** C16 *)
Lemma step_swap : forall D id r1 r2 v v1 v2, independent E id r1 r2 -> step E D id r1 v v1 -> step E D id r2 v1 v2 ->
  exists w, step E D id r2 v w /\ step E D id r1 w v2.
Proof.
  intros D id r1 r2 v v1 v2 [K I] S1 S2. inversion S1; subst; inversion S2; subst.
  - destruct K; congruence.
  - exists (VStruct (upd_nth (f_slot f) slot' slots) unk). split; [eapply st_known; eassumption|eapply st_unknown; eassumption].
  - exists (VStruct slots (if sd_unknown (E id) then Some match unk with Some u => u ++ w_raw r2 | None => w_raw r2 end else unk)).
    split; [eapply st_unknown; eassumption|eapply st_known; eassumption].
  - assert (NE : f_slot f <> f_slot f0).
    { intro X. apply (I (f_slot f)). split; [exists f; auto|exists f0; auto]. }
    match goal with H : nth_error (upd_nth _ _ _) _ = Some _ |- _ => rewrite upd_nth_other in H by assumption end.
    exists (VStruct (upd_nth (f_slot f0) slot'0 slots) unk). split; [eapply st_known; eassumption|].
    rewrite upd_nth_comm by (intro; apply NE; congruence). eapply st_known; try eassumption. rewrite upd_nth_other; [assumption|congruence].
Qed.
Lemma steps_swap : forall D id rs1 r1 r2 rs2 v v', independent E id r1 r2 ->
  steps E D id (rs1 ++ r1 :: r2 :: rs2) v v' -> steps E D id (rs1 ++ r2 :: r1 :: rs2) v v'.
Proof.
  intros D id rs1 r1 r2 rs2 v v' I S. apply steps_app in S as (v1 & S1 & S2). apply steps_app. exists v1. split; [assumption|].
  inversion S2 as [|? ? ? v2 ? ST1 S3]; subst. inversion S3 as [|? ? ? v3 ? ST2 S4]; subst.
  destruct (step_swap _ _ _ _ _ _ _ I ST1 ST2) as (w & A & B). econstructor; [exact A|]. econstructor; eassumption.
Qed.
Lemma independent_sym : forall id r1 r2, independent E id r1 r2 -> independent E id r2 r1.
Proof. intros id r1 r2 [K I]. split; [tauto|]. intros i [A B]. apply (I i). auto. Qed.
Lemma order_irrelevant : forall P id v v' rs1 r1 r2 rs2, wt E (TStruct id) v ->
  Forall wf_wrec (rs1 ++ r1 :: r2 :: rs2) -> independent E id r1 r2 ->
  (Unmarshal E P (concat (map w_raw (rs1 ++ r1 :: r2 :: rs2))) (APtr id (Some v)) = DOk v' tt <->
   Unmarshal E P (concat (map w_raw (rs1 ++ r2 :: r1 :: rs2))) (APtr id (Some v)) = DOk v' tt).
Proof.
  intros P id v v' rs1 r1 r2 rs2 W F I.
  assert (F' : Forall wf_wrec (rs1 ++ r2 :: r1 :: rs2)).
  { apply Forall_app in F as [A B]. inversion B as [|? ? ? C]; subst. inversion C; subst. apply Forall_app. auto. }
  rewrite (Unmarshal_known E WF P id _ v v' (rs1 ++ r1 :: r2 :: rs2)) by (auto; split; auto).
  rewrite (Unmarshal_known E WF P id _ v v' (rs1 ++ r2 :: r1 :: rs2)) by (auto; split; auto).
  split; apply steps_swap; [assumption|now apply independent_sym].
Qed.

(** ** C17 *)
Lemma concat_merge : forall P id b1 b2 v v1, wt E (TStruct id) v -> sd_unknown (E id) = false ->
  Unmarshal E P b1 (APtr id (Some v)) = DOk v1 tt ->
  (forall v', Unmarshal E P (b1 ++ b2) (APtr id (Some v)) = DOk v' tt <-> Unmarshal E P b2 (APtr id (Some v1)) = DOk v' tt).
Proof.
  intros P id b1 b2 v v1 W U H v'.
  assert (DU : forall v, drop_unknown E id v = v) by (intros []; cbn; rewrite ?U; reflexivity).
  assert (W1 : wt E (TStruct id) v1).
  { destruct (Unmarshal_total E WF P id b1 v W) as [(v0 & X & WX)|(v0 & e & X)]; congruence. }
  pose proof H as H0. apply (Unmarshal_steps E WF) in H0 as (rs1 & R1 & S1); [|assumption].
  rewrite (Unmarshal_steps E WF P id (b1 ++ b2)) by assumption. rewrite (Unmarshal_steps E WF P id b2) by assumption.
  rewrite !DU in *. split.
  - intros (rs & R & S). destruct R1 as [F1 ->]. apply wire_records_split in R as (rs2 & -> & R2); [|assumption].
    exists rs2. split; [assumption|]. apply steps_app in S as (v2 & S1' & S2).
    assert (v2 = v1); [|congruence].
    assert (Unmarshal E P (concat (map w_raw rs1)) (APtr id (Some v)) = DOk v2 tt).
    { eapply Unmarshal_known; [assumption|assumption|split; [eassumption|reflexivity]|]. now rewrite DU. }
    congruence.
  - intros (rs2 & R2 & S2). exists (rs1 ++ rs2). split; [now apply wire_records_app|]. apply steps_app. eauto.
Qed.

(** ** C35 *)
Lemma lookup_set : forall m k v k', (exists n, k = VNum n) \/ (exists s, k = VStr s) ->
  lookup (map_set m k v) k' = if key_eqb k k' then Some v else lookup m k'.
Proof.
  intros m k v k' K. unfold lookup. induction m as [|[k0 v0] m IH]; cbn [map_set find fst].
  - destruct (key_eqb k k'); reflexivity.
  - destruct (key_eqb k0 k) eqn:Q.
    + rewrite key_eqb_sym in Q. apply key_eqb_eq in Q; [|assumption]. subst k0. cbn [find fst].
      destruct (key_eqb k k'); reflexivity.
    + cbn [find fst]. destruct (key_eqb k0 k') eqn:Q2; [|exact IH].
      destruct (key_eqb k k') eqn:Q3; [|reflexivity]. exfalso. apply key_eqb_eq in Q3; [|assumption]. subst k'. congruence.
Qed.
Lemma lookup_app : forall a b k, lookup (a ++ b) k = match lookup a k with Some v => Some v | None => lookup b k end.
Proof.
  intros a b k. unfold lookup. induction a as [|[k0 v0] a IH]; [reflexivity|]. cbn [app find fst].
  destruct (key_eqb k0 k); [reflexivity|exact IH].
Qed.

Lemma steps_map : forall D id f kt vt, In f (sd_fields (E id)) -> f_T f = TMap kt vt ->
  forall rs s u s' u' m, steps E D id rs (VStruct s u) (VStruct s' u') ->
  nth_error s (f_slot f) = Some (VMap m) ->
  exists m' es, nth_error s' (f_slot f) = Some (VMap m') /\
    Forall2 (is_entry E D f) (filter (of_field f) rs) es /\
    forall k, lookup (entries m') k = match lookup (rev es) k with Some v => Some v | None => lookup (entries m) k end.
Proof.
  intros D id f kt vt HI HT.
  assert (SP := wf_supported E WF id f HI). pose proof SP as SP0. unfold supported in SP0. rewrite HT in SP0.
  rewrite !andb_true_iff in SP0. destruct SP0 as [[[[[RP _] HO'] _] HK] _].
  assert (HO : f_oneof f = None) by (destruct (f_oneof f); [discriminate|reflexivity]). clear HO'.
  intro rs. induction rs as [|r rs IH]; intros s u s' u' m S NS; inversion S; subst.
  - exists m, []. split; [assumption|]. split; [constructor|]. reflexivity.
  - match goal with H : step _ _ _ _ _ _ |- _ => rename H into ST end. step_struct ST.
    match goal with H : steps _ _ _ rs _ _ |- _ => rename H into SS end. cbn [filter].
    destruct (of_field f r) eqn:OF.
    + destruct (step_same E WF _ _ _ _ _ _ _ f ST HI) as (x & x' & N1 & N2 & M); [now apply N.eqb_eq|].
      rewrite NS in N1. injection N1 as <-.
      assert (exists k v, x' = VMap (Some (put_entry m k v)) /\ ((exists n, k = VNum n) \/ (exists s, k = VStr s)) /\
        is_entry E D f r (k, v)) as (k & v & -> & KF & IE).
      { inversion M; subst; try congruence. exists k, v. split; [reflexivity|].
        match goal with H : f_T f = TMap ?a ?b |- _ => assert (a = kt /\ b = vt) as [-> ->] by (split; congruence) end.
        split; [eapply key_reads_form; eassumption|].
        unfold is_entry. match goal with H : 2 = w_typ r |- _ => rewrite <- H end.
        match goal with H : _ = w_data r |- _ => rewrite <- H end.
        change [(k, v)] with (put_entry None k v). subst s0. econstructor; eassumption. }
      destruct (IH s1 u1 s' u' _ SS N2) as (m' & es & NX & F & L).
      exists m', ((k, v) :: es). split; [assumption|]. split; [constructor; assumption|].
      intro k'. rewrite L. cbn [rev]. rewrite lookup_app. unfold put_entry. cbn [entries].
      rewrite lookup_set by assumption. destruct (lookup (rev es) k'); [reflexivity|].
      unfold lookup at 2. cbn [find fst]. destruct (key_eqb k k'); reflexivity.
    + destruct (IH s1 u1 s' u' m SS) as (m' & es & NX & F & L).
      * rewrite <- NS. eapply step_other; [exact ST|]. now apply not_touches.
      * exists m', es. auto.
Qed.
Lemma map_last_key : forall P id b s u v' rs f kt vt m, wt E (TStruct id) (VStruct s u) -> wire_records b rs ->
  Unmarshal E P b (APtr id (Some (VStruct s u))) = DOk v' tt ->
  In f (sd_fields (E id)) -> f_T f = TMap kt vt -> nth_error s (f_slot f) = Some (VMap m) ->
  exists s' u' m' es, v' = VStruct s' u' /\ nth_error s' (f_slot f) = Some (VMap m') /\
    Forall2 (is_entry E 1000 f) (filter (of_field f) rs) es /\
    forall k, lookup (entries m') k = match lookup (rev es) k with Some v => Some v | None => lookup (entries m) k end.
Proof.
  intros P id b s u v' rs f kt vt m W R H HI HT NS. destruct (ok_steps _ _ _ _ _ _ _ W R H) as (s' & u' & -> & _ & S).
  destruct (steps_map _ _ _ _ _ HI HT _ _ _ _ _ _ S NS) as (m' & es & A & B & C). eauto 10.
Qed.

(** ** C39 *)
Lemma reads_wtype : forall t D tag typ p x x', value_ok tag (strip t) = true -> reads E D false tag t typ p x x' -> typ = tag_wtype tag.
Proof.
  assert (B : forall tag, tag_eqb tag TagBytes = true -> tag = TagBytes) by (intros []; easy).
  intro t. induction t as [k| | |id|t IH|t IH|kt IHk vt IHv|alts|]; intros D tag typ p x x' V R; inversion R; subst; cbn [strip value_ok] in V.
  - match goal with H : reads_scalar _ _ _ _ _ _ |- _ => inversion H; subst end; try discriminate; try reflexivity.
    match goal with H : In tag _ |- _ => destruct H as [<-|[<-|[<-|[]]]]; reflexivity end.
  - now rewrite (B tag V).
  - now rewrite (B tag V).
  - now rewrite (B tag V).
  - eapply IH; [|eassumption]. destruct t; try discriminate V; exact V.
Qed.
Lemma merges_wtype : forall id f D typ p x x', In f (sd_fields (E id)) -> merges E D f typ p x x' ->
  typ = tag_wtype (f_tag f) \/ typ = 2 /\ f_packed f = true.
Proof.
  intros id f D typ p x x' HI M. pose proof (wf_supported E WF id f HI) as SP.
  destruct (supported_cases f SP) as [(RP & PK & V)|[(HO & RP & t & HT & V & _)|(HO & kt & vt & HT)]].
  - left. inversion M; subst; try congruence; try (eapply reads_wtype; eassumption).
    + rewrite H0 in V. discriminate V.
    + rewrite H0 in V. discriminate V.
  - inversion M; subst; try congruence; [right; auto|]. left.
    match goal with H : f_T f = TSlice ?a |- _ => assert (a = t) by congruence; subst a end. eapply reads_wtype; eassumption.
  - left. unfold supported in SP. rewrite HT in SP. rewrite !andb_true_iff in SP. destruct SP as [[[[[RP _] _] TB] _] _].
    assert (X : f_tag f = TagBytes) by (destruct (f_tag f); easy). rewrite X.
    inversion M; subst; try congruence. reflexivity.
Qed.
Lemma steps_all : forall D id rs v v' r, steps E D id rs v v' -> In r rs -> exists v1 v2, step E D id r v1 v2.
Proof.
  intros D id rs. induction rs as [|r0 rs IH]; intros v v' r S HI; [destruct HI|]. inversion S; subst.
  destruct HI as [<-|HI]; [eauto|]. eapply IH; eassumption.
Qed.
Lemma wire_type_checked : forall P id b v rs r f, wt E (TStruct id) v -> wire_records b rs -> In r rs ->
  In f (sd_fields (E id)) -> field_num f = w_num r ->
  w_typ r <> tag_wtype (f_tag f) -> ~ (w_typ r = 2 /\ f_packed f = true) ->
  exists v' e, Unmarshal E P b (APtr id (Some v)) = DErr v' e.
Proof.
  intros P id b v rs r f W R HR HI HN T1 T2. apply Unmarshal_err; [assumption|assumption|].
  intros v' rs' R' S. rewrite <- (wire_records_unique _ _ _ R R') in S.
  destruct (steps_all _ _ _ _ _ _ S HR) as (v1 & v2 & ST). inversion ST; subst.
  - match goal with K : known _ _ _ = false |- _ => rewrite known_false in K; now apply K in HI end.
  - match goal with HI' : In ?g _, HN' : field_num ?g = _ |- _ =>
      assert (g = f) by (eapply (wf_same_num E anyQ WF id); congruence); subst g end.
    match goal with M : merges _ _ _ _ _ _ _ |- _ => apply (merges_wtype id) in M; [|assumption] end. tauto.
Qed.

(** ** C29, C50 *)
Lemma Unmarshal_initialised : forall P id b v v', wt E (TStruct id) v ->
  Unmarshal E P b (APtr id (Some v)) = DOk v' tt -> wt E (TStruct id) v'.
Proof.
  intros P id b v v' W H. destruct (Unmarshal_total E WF P id b v W) as [(v0 & X & WX)|(v0 & e & X)]; congruence.
Qed.
Lemma Unmarshal_failed : forall P id b v v' e, wt E (TStruct id) v ->
  Unmarshal E P b (APtr id (Some v)) = DErr v' e -> wtg E (fun _ _ => True) true (TStruct id) v'.
Proof.
  intros P id b v v' e W H. unfold Unmarshal in H.
  pose proof (DecodeStruct2 E anyQ WF (fun _ => I) (fun _ _ _ _ _ _ _ _ _ _ => I)
      (S (length b)) [] P id (Z.of_nat defaultRecursionMaxDepth) b v false ltac:(lia) W) as X.
  rewrite H in X. exact X.
Qed.

(** ** C42 *)
Lemma growth_bound : forall P id b s u v' rs f t e sp, wt E (TStruct id) (VStruct s u) ->
  wire_records b rs -> Unmarshal E P b (APtr id (Some (VStruct s u))) = DOk v' tt ->
  In f (sd_fields (E id)) -> f_T f = TSlice t -> nth_error s (f_slot f) = Some (VSlice e sp) ->
  (forall r, In r rs -> of_field f r = true -> w_typ r <> 2 \/ f_packed f = false) ->
  exists s' u' xs sp', v' = VStruct s' u' /\ nth_error s' (f_slot f) = Some (VSlice (e ++ xs) sp') /\
    let c := cap (VSlice e sp) in let c' := cap (VSlice (e ++ xs) sp') in let n := length (e ++ xs) in
    (c' <= Nat.max (Nat.max 8 c) (2 * n))%nat /\
    exists j, (c' = c \/ c' = (if Nat.eqb c 0 then 8 else c) * 2 ^ j)%nat /\ (j <= Nat.log2_up n)%nat.
Proof.
  intros P id b s u v' rs f t e sp W R H HI HT NS TY. destruct (ok_steps _ _ _ _ _ _ _ W R H) as (s' & u' & -> & _ & S).
  assert (HO : f_oneof f = None).
  { destruct (supported_cases f (wf_supported E WF id f HI)) as [(_ & _ & X)|[[X _]|[X _]]]; auto.
    rewrite HT in X. discriminate X. }
  destruct (steps_list 1000 id f t HI HO HT _ _ _ _ _ _ _ S NS TY) as (xs & sp' & N' & F & _ & CP).
  exists s', u', xs, sp'. split; [reflexivity|]. split; [assumption|]. intros c c' n.
  assert (L : length (filter (of_field f) rs) = length xs) by (eapply Forall2_length; exact F).
  rewrite L in CP. fold c c' in CP. assert (LE : (length e <= c)%nat) by (subst c; cbn; lia).
  destruct (length xs) as [|k] eqn:LX.
  - cbn [grown] in CP. rewrite CP. split; [lia|]. exists O. split; [now left|lia].
  - destruct (grown_spec (Datatypes.S k) (length e) c ltac:(lia) LE) as (j & G & A & B). rewrite <- CP in G, A.
    assert (n = length e + Datatypes.S k)%nat as EN by (subst n; rewrite app_length; lia). rewrite <- EN in *.
    clearbody c c' n. set (c0 := (if Nat.eqb c 0 then 8 else c)%nat) in *.
    assert (1 <= c0)%nat by (subst c0; destruct (Nat.eqb_spec c 0); lia).
    assert (c0 <= Nat.max 8 c)%nat by (subst c0; destruct (Nat.eqb_spec c 0); lia).
    clearbody c0. split.
    + destruct j as [|j].
      * cbn in G. lia.
      * specialize (B ltac:(lia)). cbn [Nat.sub] in B. rewrite Nat.sub_0_r in B. cbn [Nat.pow] in G. lia.
    + exists j. split; [now right|]. destruct j as [|j]; [lia|]. specialize (B ltac:(lia)). cbn [Nat.sub] in B. rewrite Nat.sub_0_r in B.
      assert (2 ^ j < n)%nat.
      { eapply Nat.le_lt_trans; [|exact B]. rewrite <- (Nat.mul_1_l (2 ^ j)) at 1. apply Nat.mul_le_mono_r. assumption. }
      destruct (Nat.le_gt_cases (Datatypes.S j) (Nat.log2_up n)) as [|X]; [assumption|exfalso].
      assert (n <= 2 ^ Nat.log2_up n)%nat by (apply Nat.log2_log2_up_spec; lia).
      assert (2 ^ Nat.log2_up n <= 2 ^ j)%nat by (apply Nat.pow_le_mono_r; lia). lia.
Qed.

(** ** C15, encoding *)
Definition member (i : nat) (f : fdesc) : bool :=
  match f_oneof f with Some _ => Nat.eqb (f_slot f) i | None => false end.
Lemma data_den_one : forall rec recm f v fs, f_rep f = false -> supported f = true ->
  data_den E rec recm f v = Some fs -> (length fs <= 1)%nat.
Proof.
  intros rec recm f v fs HR SP H. unfold data_den in H.
  assert (O : forall (num : N) o, option_map (fun p : pval => [(num, p)]) o = Some fs -> (length fs <= 1)%nat).
  { intros num [p|] X; cbn in X; [injection X as <-; cbn; lia|discriminate]. }
  destruct (f_T f) as [k| | |id|t|t|kt vt|alts|] eqn:HT; try (unfold supported in SP; rewrite HT, HR in SP; discriminate SP).
  all: destruct v as [| | | |[]| | | |]; try (destruct (omitted E _ _); [injection H as <-; cbn; lia|]); try (eapply O; exact H).
  all: try (injection H as <-; cbn; lia).
Qed.
Lemma oneof_at_most_one : forall two d id v fs u i, wt E (TStruct id) v ->
  msg E two d id (Some v) = Some (QMsg fs u) ->
  (length (filter (fun r => existsb (fun f => match f_oneof f with Some _ => Nat.eqb (f_slot f) i | None => false end
                                    && (field_num f =? fst r)%N) (sd_fields (E id))) fs) <= 1)%nat.
Proof.
  intros two d id v fs u i W H. destruct d as [|d]; [discriminate|]. cbn [msg] in H.
  apply wt_struct_inv in W as (slots & unk & -> & WS & _).
  match type of H with option_map _ (fields_den E ?r1 ?r2 _ _) = _ => generalize dependent r2; generalize r1 end.
  intros rec recm H. fold (member i) in *.
  destruct (fields_den E rec recm (sd_fields (E id)) slots) as [fs0|] eqn:FD; [|discriminate]. cbn in H. injection H as -> _.
  unfold fields_den in FD.
  set (F := fun f => match nth_error slots (f_slot f) with Some slot => field_den E rec recm f slot | None => None end) in *.
  destruct (omap F (sd_fields (E id))) as [l|] eqn:OM; [|discriminate]. cbn in FD. injection FD as <-.
  set (g := fun r : N * pval => existsb (fun f => member i f && (field_num f =? fst r)) (sd_fields (E id))).
  change (length (filter g (concat l)) <= 1)%nat.
  (* the stored wrapper *)
  set (active := fun f : fdesc => member i f = true /\ exists w x, f_oneof f = Some w /\ nth_error slots i = Some (VIface (Some (w, Some x)))).
  assert (ONE : forall f rs, In f (sd_fields (E id)) -> F f = Some rs ->
     (length (filter g rs) <= 1)%nat /\ (filter g rs = [] \/ active f)).
  { intros f rs HI HF. subst F. cbn beta in HF. destruct (nth_error slots (f_slot f)) as [slot|] eqn:NS; [|discriminate].
    pose proof (field_den_num _ _ _ _ _ _ HF) as NUM.
    destruct (member i f) eqn:MB.
    - unfold field_den in HF. unfold member in MB. destruct (f_oneof f) as [w|] eqn:HO; [|discriminate].
      apply Nat.eqb_eq in MB. subst i.
      destruct slot as [| | | | | | | |[[w' [x|]]|]]; try (injection HF as <-; split; [cbn; lia|now left]).
      destruct (Nat.eqb_spec w' w) as [->|]; [|injection HF as <-; split; [cbn; lia|now left]].
      split.
      + assert (length (filter g rs) <= length rs)%nat.
        { clear. induction rs as [|a rs IH]; cbn; [lia|]. destruct (g a); cbn; lia. }
        assert (length rs <= 1)%nat; [|lia]. eapply data_den_one; [|exact (wf_supported E WF id f HI)|exact HF].
        pose proof (wf_supported E WF id f HI) as SP. destruct (supported_cases f SP) as [(X & _)|[[X _]|[X _]]]; congruence.
      + right. split; [unfold member; rewrite HO; apply Nat.eqb_refl|]. exists w, x. auto.
    - assert (filter g rs = []) as ->; [|split; [cbn; lia|now left]].
      clear HF. induction NUM as [|r rs HN _ IH]; [reflexivity|]. cbn [filter].
      assert (g r = false) as ->; [|exact IH]. subst g. cbn beta.
      destruct (existsb (fun f => member i f && (field_num f =? fst r)) (sd_fields (E id))) eqn:X; [|reflexivity].
      apply existsb_exists in X as (f' & HI' & X). apply andb_true_iff in X as [X1 X2]. apply N.eqb_eq in X2.
      assert (f' = f) by (eapply (wf_same_num E anyQ WF id); congruence). congruence. }
  assert (UNIQ : forall f f', In f (sd_fields (E id)) -> In f' (sd_fields (E id)) -> active f -> active f' -> f = f').
  { intros f f' HI HI' (M1 & w1 & x1 & O1 & N1) (M2 & w2 & x2 & O2 & N2). rewrite N1 in N2. injection N2 as <- <-.
    unfold member in M1, M2. rewrite O1 in M1. rewrite O2 in M2. apply Nat.eqb_eq in M1, M2.
    destruct (wf_slots _ _ (WF id) f f' HI HI') as [X|(a & a' & A & A' & X)]; [congruence|assumption|congruence]. }
  assert (ND : NoDup (sd_fields (E id))).
  { pose proof (wf_sorted _ _ (WF id)) as S. clear - S. induction S as [|f l S IH F]; constructor; [|assumption].
    intro HI. rewrite Forall_forall in F. specialize (F f HI). lia. }
  clearbody g.
  assert (G : forall fl, (forall f, In f fl -> In f (sd_fields (E id))) -> NoDup fl -> forall l, omap F fl = Some l ->
    (length (filter g (concat l)) <= 1)%nat /\ (filter g (concat l) = [] \/ exists f, In f fl /\ active f)).
  { intro fl. induction fl as [|f fl IH]; intros SUB ND1 l1 OM1; cbn [omap] in OM1.
    - injection OM1 as <-. cbn. split; [lia|now left].
    - destruct (F f) as [rs|] eqn:HF; [|discriminate]. destruct (omap F fl) as [l'|] eqn:OM'; [|discriminate].
      injection OM1 as <-. cbn [concat]. rewrite filter_app, app_length. inversion ND1 as [|? ? NI ND']; subst.
      destruct (IH (fun f H => SUB f (or_intror H)) ND' l' eq_refl) as [A B].
      destruct (ONE f rs (SUB f (or_introl eq_refl)) HF) as [A1 B1].
      destruct B1 as [->|B1].
      + cbn [app length]. split; [lia|]. destruct B as [->|(f' & I' & B)]; [now left|]. right. exists f'. split; [now right|assumption].
      + destruct B as [->|(f' & I' & B)].
        * cbn [length]. split; [lia|]. right. exists f. split; [now left|assumption].
        * exfalso. apply NI. rewrite (UNIQ f f'); [assumption|apply SUB; now left|apply SUB; now right|assumption|assumption]. }
  exact (proj1 (G _ (fun f H => H) ND l OM)).
Qed.
End Facts.
