(** GetOrParse after any history. *)
From Coq Require Import Bool Lia.
From Verif Require Import Base Wire Coder MapTables Value Desc GoStr TagParse Parse StrFacts Hist HistSpec HistProofs HistInv HistFin.
Open Scope nat_scope.

Definition strip (t : gotype) : gotype := match t with TPtr t => t | t => t end.

Section D.
Variable D : nat -> godecl.

Lemma wf_empty : wf empty.
Proof. constructor; cbn; auto; intros; lia. Qed.

Section Watched.
Variable allok : bool.
Variable W : gotype -> Prop.
Variable WS : nat -> Prop.
Hypothesis HPtr : forall t, W (TPtr t) -> W t.
Hypothesis HPtr' : forall t, allok = false -> W (TPtr t) -> is_ptr t = false.
Hypothesis HSlice : forall t, W (TSlice t) -> W t.
Hypothesis HMap : forall k v, W (TMap k v) -> W k /\ W v.
Hypothesis HStruct : forall i, W (TStruct i) -> WS i.
Hypothesis HStruct' : forall i, WS i -> W (TStruct i).
Hypothesis HOther : W TOther.
Hypothesis HSteps : forall i, WS i -> Forall (fun s => match s with SField _ _ g => W (gf_type g) | _ => True end) (steps (D i)).
Hypothesis HRaw : forall i l p, WS i -> raw_struct (D i) = POk l -> In p l -> W (f_T (pf_desc p)).
Hypothesis HOk : forall i, allok = false -> WS i -> exists l, raw_struct (D i) = POk l.
Hypothesis HFin : forall i l p, allok = false -> WS i -> raw_struct (D i) = POk l -> In p l ->
  finalize_field (pf_key p) (pf_val p) (pf_desc p) <> None.

Notation inv := (inv D W WS).
Notation FInv := (FInv W WS).

Let spi := sp_inv D allok W WS HPtr HSlice HMap HStruct HRaw HFin.
Let ins := Inv_new_struct D allok W WS HPtr HSlice HMap HStruct HOther HSteps HRaw HOk.
Let int := Inv_new_type D allok W WS HPtr HPtr' HSlice HMap HStruct HOther HSteps HRaw HOk.
Let ist := Inv_set_type D allok W WS HStruct HSteps HRaw HOk.

Record state (h : heap) : Prop := {
  st_inv : inv h;
  st_fin : FInv h none none;
  st_cache : forall t i s, strip t = TStruct i -> WS i -> cache h t = Some s -> cs h i = Some s /\ so_fin (sh h s) = true }.

Lemma state_empty : state empty.
Proof.
  constructor; [constructor|constructor|]; cbn; try discriminate; try (intros; lia).
  - exact wf_empty.
Qed.

Lemma parse_FInv : forall h h', inv h -> inv h' -> frame h h' -> FInv h none none -> FInv h' none none.
Proof.
  intros h h' IV IV' F [F1 F2]. constructor.
  - intros o (t & Wt & C) Fo. right. destruct (inv_t _ _ _ _ _ _ IV' t o Wt C) as (L & R & _).
    destruct (Nat.lt_ge_cases o (h_tn h)) as [Lo|Lo]; [|rewrite (fr_tfin _ _ F) in Fo by lia; discriminate].
    pose proof (fr_t _ _ F o Lo) as E. rewrite E in *.
    assert (Wo : WO W h o).
    { exists t. split; [exact Wt|]. rewrite <- R. apply (inv_lt _ _ _ _ _ _ IV o Lo). now rewrite R. }
    destruct (F1 o Wo Fo) as [[]|(A & B)]. destruct (WO_links D W WS HPtr HSlice HMap HStruct HOther h o IV Wo) as (_ & X2 & X3). split.
    + intros s Es. destruct (X3 s Es) as (i & Wi & Ci). destruct (inv_s _ _ _ _ _ _ IV i s Wi Ci) as (Ls & _). rewrite (fr_s _ _ F s Ls). auto.
    + intros v Ev. destruct (X2 v Ev) as (u & Wu & Cu). destruct (inv_t _ _ _ _ _ _ IV u v Wu Cu) as (Ls & _). rewrite (fr_t _ _ F v Ls). auto.
  - intros s (i & Wi & C) Fs. right. destruct (inv_s _ _ _ _ _ _ IV' i s Wi C) as (L & R & _).
    destruct (Nat.lt_ge_cases s (h_sn h)) as [Lo|Lo]; [|rewrite (fr_sfin _ _ F) in Fs by lia; discriminate].
    pose proof (fr_s _ _ F s Lo) as E. rewrite E in *.
    assert (Wo : WSO WS h s).
    { exists i. split; [exact Wi|]. apply (inv_ls _ _ _ _ _ _ IV s i Lo R Wi). }
    destruct (F2 s Wo Fs) as [[]|A].
    pose proof (WSO_fields D allok W WS HRaw HFin h s IV Wo) as X. rewrite Forall_forall in *. intros f Hf. destruct (A f Hf) as (A1 & A2). split; [exact A1|].
    destruct (X f Hf) as (W1 & C1 & _). destruct (inv_t _ _ _ _ _ _ IV _ _ W1 C1) as (Lf & _). now rewrite (fr_t _ _ F _ Lf).
Qed.

Lemma get_state : forall h fuel t h' r, state h -> GetOrParse D fuel h t = (h', r) -> r <> RFuel -> (allok = true -> exists s, r = ROk s) ->
  state h' /\ (forall i, strip t = TStruct i -> WS i -> exists s, r = ROk s /\ cs h' i = Some s /\ so_fin (sh h' s) = true).
Proof.
  intros h fuel t h' r ST E NF OK. unfold GetOrParse in E. destruct (cache h t) as [s|] eqn:C.
  { injection E as <- <-. split; [exact ST|]. intros i Et Wi. exists s. split; [reflexivity|]. now apply (st_cache _ ST t). }
  fold (strip t) in E. destruct (strip t) as [kd| | |i|u|u|u1 u2|alts|] eqn:Et; try (injection E as <- <-; split; [exact ST|]; discriminate).
  destruct ST as [IV FI CA].
  destruct (parseType D fuel h (TStruct i)) as [h1 r1] eqn:E1.
  assert (N1 : r1 <> RFuel) by (intros ->; cbn in E; injection E as <- <-; now apply NF).
  assert (O1 : allok = true -> exists o, r1 = ROk o).
  { intros A. destruct (OK A) as (y & ->). destruct r1; eauto; discriminate. }
  destruct (parseType_inv D allok W WS HPtr HPtr' HSlice HMap HStruct HOther HSteps HRaw HOk fuel h none none _ _ _ IV E1 N1 O1) as (IV1 & X1 & V1).
  pose proof (parseType_frame D _ _ _ _ _ E1 (inv_wf _ _ _ _ _ _ IV)) as F1.
  pose proof (parse_FInv h h1 IV IV1 F1 FI) as FI1.
  assert (CA1 : forall t i s, strip t = TStruct i -> WS i -> cache h1 t = Some s -> cs h1 i = Some s /\ so_fin (sh h1 s) = true).
  { intros t' j s Ej Wj Cj. rewrite (fr_cache _ _ F1) in Cj. destruct (CA t' j s Ej Wj Cj) as (A & B). split; [now apply X1|].
    destruct (inv_s _ _ _ _ _ _ IV j s Wj A) as (L & _). now rewrite (fr_s _ _ F1 s L). }
  destruct r1 as [o| | |]; cbn [rbind] in E.
  2,3,4: injection E as <- <-; split; [now constructor|]; intros j [= <-] Wi; destruct (V1 (HStruct' _ Wi)) as (y & Bad & _); discriminate.
  assert (LK : WS i -> exists s, to_S (th h1 o) = Some s /\ cs h1 i = Some s).
  { intros Wi. destruct (V1 (HStruct' _ Wi)) as (y & [= <-] & Co). destruct (inv_t _ _ _ _ _ _ IV1 _ _ (HStruct' _ Wi) Co) as (_ & _ & [[]|(s & -> & Cs)]). exists s. auto. }
  destruct (to_S (th h1 o)) as [s|] eqn:Es.
  2: { injection E as <- <-. split; [now constructor|]. intros j [= <-] Wi. destruct (LK Wi) as (s & Bad & _). discriminate. }
  destruct (finalizeStruct fuel h1 s) as [h2 r2] eqn:E2.
  assert (N2 : r2 <> RFuel) by (intros ->; cbn in E; injection E as <- <-; now apply NF).
  assert (O2 : allok = true -> r2 = ROk tt).
  { intros A. destruct (OK A) as (y & ->). destruct r2 as [[]| | |]; auto; discriminate. }
  pose proof (finS_sp _ _ _ _ _ E2) as S2.
  destruct (fin_inv D allok W WS HPtr HSlice HMap HStruct HOther HRaw HFin fuel) as (_ & FS).
  destruct (FS _ _ _ _ _ _ IV1 FI1 E2 N2 O2) as (FI2 & V2). pose proof (spi _ _ _ _ S2 IV1) as IV2.
  assert (CA2 : forall t i s, strip t = TStruct i -> WS i -> cache h2 t = Some s -> cs h2 i = Some s /\ so_fin (sh h2 s) = true).
  { intros t' j s' Ej Wj Cj. rewrite (sp_cache _ _ S2) in Cj. destruct (CA1 t' j s' Ej Wj Cj) as (A & B). rewrite (sp_cs _ _ S2). split; [exact A|]. now apply (sp_sf _ _ S2). }
  destruct r2 as [u| | |]; cbn [rbind] in E.
  2,3,4: injection E as <- <-; split; [now constructor|]; intros j [= <-] Wi; destruct (LK Wi) as (s' & [= <-] & Cs);
    destruct V2 as (Bad & _); [now exists i|discriminate].
  injection E as <- <-.
  assert (GOOD : WS i -> cs h2 i = Some s /\ so_fin (sh h2 s) = true).
  { intros Wi. destruct (LK Wi) as (s' & [= <-] & Cs). split; [now rewrite (sp_cs _ _ S2)|]. destruct V2 as (_ & V2); [now exists i|]. exact V2. }
  split; [|intros j [= <-] Wi; exists s; split; [reflexivity|]; now apply GOOD].
  constructor.
  - destruct IV2 as [I1 I2 I3 I4 I5]. constructor; auto. destruct I1. constructor; auto.
  - destruct FI2 as [G1 G2]. constructor; auto.
  - intros t' j s' Ej Wj Cj. cbn in Cj |- *. destruct (gotype_eqb_spec t' t) as [->|_]; [|now apply CA2 with t'].
    injection Cj as <-. rewrite Et in Ej. injection Ej as <-. now apply GOOD.
Qed.

(** * Enough fuel *)
Section Total.
Hypothesis AF : allok <> true.
Variable U : list gotype.
Hypothesis UOther : In TOther U.
Hypothesis UPtr : forall t, In (TPtr t) U -> In t U.
Hypothesis USlice : forall t, In (TSlice t) U -> In t U.
Hypothesis UMap : forall k v, In (TMap k v) U -> In k U /\ In v U.
Hypothesis USteps : forall i, In (TStruct i) U -> WS i -> Forall (fun s => match s with SField _ _ g => In (gf_type g) U | _ => True end) (steps (D i)).
Hypothesis URaw : forall i l p, In (TStruct i) U -> WS i -> raw_struct (D i) = POk l -> In p l -> In (f_T (pf_desc p)) U.

Definition count (f : gotype -> nat) (l : list gotype) : nat := list_sum (map f l).
Lemma count_cons : forall f u l, count f (u :: l) = f u + count f l.
Proof. reflexivity. Qed.
Lemma count_le : forall f g l, (forall u, In u l -> f u <= g u) -> count f l <= count g l.
Proof.
  induction l as [|u l IH]; intros H; [reflexivity|]. rewrite !count_cons. pose proof (H u (or_introl eq_refl)).
  assert (count f l <= count g l) by (apply IH; intros; apply H; now right). lia.
Qed.
Lemma count_lt : forall f g l u, (forall u, In u l -> f u <= g u) -> In u l -> f u < g u -> count f l < count g l.
Proof.
  induction l as [|x l IH]; intros u H Hu L; [destruct Hu|]. rewrite !count_cons. destruct Hu as [->|Hu].
  - assert (count f l <= count g l) by (apply count_le; intros; apply H; now right). lia.
  - pose proof (H x (or_introl eq_refl)). assert (count f l < count g l) by (apply (IH u); auto; intros; apply H; now right). lia.
Qed.
Lemma count_bound : forall f l n, (forall u, f u <= n) -> count f l <= n * length l.
Proof. induction l as [|u l IH]; intros n H; [cbn; lia|]. rewrite count_cons. cbn [length]. pose proof (H u). specialize (IH n H). lia. Qed.

Definition open_t (h : heap) (u : gotype) : nat := match ct h u with None => 1 | Some _ => 0 end.
Lemma open_keeps : forall h h', keeps h h' -> count (open_t h') U <= count (open_t h) U.
Proof.
  intros h h' (X & _). apply count_le. intros u Hu. unfold open_t. destruct (ct h u) as [o|] eqn:C; [|destruct (ct h' u); lia].
  now rewrite (X u o C).
Qed.
Definition tot (pt : heap -> gotype -> heap * res nat) (k : nat) : Prop :=
  forall h KT KS t h' r, Inv D W WS h KT KS -> In t U -> W t -> count (open_t h) U < k -> pt h t = (h', r) -> r <> RFuel.

Let PTI fuel := parseType_inv D allok W WS HPtr HPtr' HSlice HMap HStruct HOther HSteps HRaw HOk fuel.

Lemma run_steps_total : forall pt k, PT D allok W WS pt -> (forall h t h' o, pt h t = (h', ROk o) -> keeps h h') -> tot pt k ->
  forall l h KT KS h' r, Inv D W WS h KT KS -> count (open_t h) U < k ->
  Forall (fun s => match s with SField _ _ g => In (gf_type g) U | _ => True end) l ->
  Forall (fun s => match s with SField _ _ g => W (gf_type g) | _ => True end) l -> run_steps pt h l = (h', r) -> r <> RFuel.
Proof.
  intros pt k P PK T. induction l as [|[slot w g| |] l IH]; intros h KT KS h' r IV L F FW E; cbn in E; try (injection E as <- <-; discriminate).
  inversion F as [|? ? Ug Fl]; subst. inversion FW as [|? ? Wg Wl]; subst. destruct (parseStructTag (gf_tag g)) as [p|]; [|injection E as <- <-; discriminate].
  destruct (pt h (gf_type g)) as [h1 r1] eqn:E1. pose proof (T _ _ _ _ _ _ IV Ug Wg L E1) as N1.
  destruct (P _ _ _ _ _ _ IV E1 N1 ltac:(congruence)) as (IV1 & X1 & V1). destruct (V1 Wg) as (o & -> & _). pose proof (open_keeps _ _ (PK _ _ _ _ E1)).
  cbn in E. destruct (run_steps pt h1 l) as [h2 r2] eqn:E2. assert (r2 <> RFuel) by (apply (IH _ _ _ _ _ IV1) with (4 := E2); [lia|assumption..]).
  destruct r2; cbn in E; injection E as <- <-; congruence.
Qed.
Lemma parseStruct_total : forall pt k, PT D allok W WS pt -> (forall h t h' o, pt h t = (h', ROk o) -> keeps h h') -> tot pt k ->
  forall h KT KS i h' r, Inv D W WS h KT KS -> count (open_t h) U < k ->
  In (TStruct i) U -> WS i -> parseStruct D pt h i = (h', r) -> r <> RFuel.
Proof.
  intros pt k P PK T h KT KS i h' r IV L Ui Wi E. unfold parseStruct in E. destruct (cs h i) as [s|] eqn:C; [injection E as <- <-; discriminate|].
  destruct (ins _ _ _ _ IV C) as (IV0 & X0). pose proof (open_keeps _ _ (keeps_new_struct h i C)).
  destruct (new_struct h i) as [h0 s]. cbn [fst] in *.
  destruct (run_steps pt h0 (steps (D i))) as [h1 r1] eqn:R.
  assert (r1 <> RFuel) by (apply (run_steps_total pt k P PK T _ _ _ _ _ _ IV0) with (4 := R); [lia|exact (USteps _ Ui Wi)|exact (HSteps _ Wi)]).
  destruct r1 as [fs| | |]; try (injection E as <- <-; congruence).
  destruct (sort_ofields fs) as [|f l]; [injection E as <- <-; discriminate|].
  destruct (of_id f <? 0)%Z; [injection E as <- <-; discriminate|].
  destruct (build_tables _); injection E as <- <-; discriminate.
Qed.
Lemma parseType_total : forall fuel, tot (parseType D fuel) fuel.
Proof.
  induction fuel as [|k IH]; intros h KT KS t h' r IV Ut Wt L E; [lia|]. cbn [parseType] in E.
  destruct (ct h t) as [o|] eqn:C; [injection E as <- <-; discriminate|].
  destruct (int _ _ _ _ IV C) as (IV0 & X0).
  assert (L0 : count (open_t (fst (new_type h t))) U < count (open_t h) U).
  { apply (count_lt _ _ U t); [|exact Ut|].
    - intros u Hu. unfold open_t. cbn. destruct (gotype_eqb u t); [lia|]. reflexivity.
    - unfold open_t. cbn. rewrite gotype_eqb_refl, C. lia. }
  destruct (new_type h t) as [h0 o] eqn:NT. cbn [fst] in *.
  assert (Ro : o < h_tn h0 /\ to_rt (th h0 o) = t /\ to_fin (th h0 o) = false).
  { injection NT as <- <-. cbn. rewrite Nat.eqb_refl. repeat split. lia. }
  match type of E with (match ?b with _ => _ end) = _ => set (body := b) in E end.
  assert (B : snd body <> RFuel).
  { unfold body. clear E body. assert (L1 : count (open_t h0) U < k) by lia.
    destruct t as [kd| | |i|t'|t'|t1 t2|alts|]; cbn [snd]; try discriminate.
    - destruct (parseType D k h0 TOther) as [h1 r1] eqn:E1. pose proof (IH _ _ _ _ _ _ IV0 UOther HOther L1 E1). destruct r1; cbn; congruence.
    - destruct (parseStruct D (parseType D k) h0 i) as [h1 r1] eqn:E1.
      pose proof (parseStruct_total _ k (PTI k) (parseType_keeps D k) IH _ _ _ _ _ _ IV0 L1 Ut (HStruct _ Wt) E1). destruct r1; cbn; congruence.
    - destruct (parseType D k h0 t') as [h1 r1] eqn:E1. pose proof (IH _ _ _ _ _ _ IV0 (UPtr _ Ut) (HPtr _ Wt) L1 E1). destruct r1; cbn; try congruence. destruct (is_ptr t'); discriminate.
    - destruct (parseType D k h0 t') as [h1 r1] eqn:E1. pose proof (IH _ _ _ _ _ _ IV0 (USlice _ Ut) (HSlice _ Wt) L1 E1). destruct r1; cbn; congruence.
    - destruct (UMap _ _ Ut) as (U1 & U2). destruct (HMap _ _ Wt) as (W1 & W2).
      destruct (parseType D k h0 t1) as [h1 r1] eqn:E1. pose proof (IH _ _ _ _ _ _ IV0 U1 W1 L1 E1) as N1.
      destruct (PTI k _ _ _ _ _ _ IV0 E1 N1 ltac:(congruence)) as (IV1 & X1 & V1). destruct (V1 W1) as (x & -> & _). pose proof (open_keeps _ _ (parseType_keeps D _ _ _ _ _ E1)) as L2.
      pose proof (parseType_frame D _ _ _ _ _ E1 (inv_wf _ _ _ _ _ _ IV0)) as F1.
      cbn [rbind snd].
      assert (IV2 : Inv D W WS (set_K h1 o x) (also (TMap t1 t2) KT) KS).
      { destruct Ro as (Ro1 & Ro2 & Ro3). apply (ist h1 _ _ (TMap t1 t2)); auto; [pose proof (fr_tn _ _ F1); lia|rewrite (fr_t _ _ F1) by exact Ro1; exact Ro2|cbn; rewrite (fr_t _ _ F1) by exact Ro1; exact Ro2|now left]. }
      destruct (parseType D k (set_K h1 o x) t2) as [h2 r2] eqn:E2. assert (N2 : r2 <> RFuel).
      { eapply (IH (set_K h1 o x)); [exact IV2|exact U2|exact W2| |exact E2]. change (count (open_t h1) U < k). lia. }
      destruct r2; cbn; congruence. }
  destruct body as [h1 r1]. cbn in B. destruct r1; injection E as <- <-; congruence.
Qed.

(** finalization *)
Definition open_f (h : heap) (u : gotype) : nat :=
  match ct h u with Some o => if to_fin (th h o) then 0 else 1 | None => 0 end +
  match u with TStruct i => match cs h i with Some s => if so_fin (sh h s) then 0 else 1 | None => 0 end | _ => 0 end.
Lemma open_sp_u : forall h h' u, sp h h' -> open_f h' u <= open_f h u.
Proof.
  intros h h' u S. unfold open_f. rewrite (sp_ct _ _ S), (sp_cs _ _ S).
  assert (A : forall o, (if to_fin (th h' o) then 0 else 1) <= (if to_fin (th h o) then 0 else 1)).
  { intros o. destruct (to_fin (th h o)) eqn:F; [rewrite (sp_tf _ _ S o F); lia|destruct (to_fin (th h' o)); lia]. }
  assert (B : forall o, (if so_fin (sh h' o) then 0 else 1) <= (if so_fin (sh h o) then 0 else 1)).
  { intros o. destruct (so_fin (sh h o)) eqn:F; [rewrite (sp_sf _ _ S o F); lia|destruct (so_fin (sh h' o)); lia]. }
  apply Nat.add_le_mono.
  - destruct (ct h u); [apply A|lia].
  - destruct u as [kd| | |i|u|u|u1 u2|alts|]; try lia. destruct (cs h i); [apply B|lia].
Qed.
Lemma open_sp : forall h h', sp h h' -> count (open_f h') U <= count (open_f h) U.
Proof. intros h h' S. apply count_le. intros u _. now apply open_sp_u. Qed.
Definition inU (h : heap) (o : nat) : Prop := exists t, In t U /\ W t /\ ct h t = Some o.
Definition sinU (h : heap) (s : nat) : Prop := exists i, In (TStruct i) U /\ WS i /\ cs h i = Some s.
Lemma inU_sp : forall h h' o, sp h h' -> inU h o -> inU h' o.
Proof. intros h h' o [] (t & A & B). exists t. now rewrite sp_ct. Qed.
Lemma sinU_sp : forall h h' o, sp h h' -> sinU h o -> sinU h' o.
Proof. intros h h' o [] (t & A & B). exists t. now rewrite sp_cs. Qed.
Lemma inU_links : forall h o, inv h -> inU h o ->
  (forall a, to_K (th h o) = Some a -> inU h a) /\ (forall a, to_V (th h o) = Some a -> inU h a) /\ (forall s, to_S (th h o) = Some s -> sinU h s).
Proof.
  intros h o IV (t & Ut & Wt & C). destruct (inv_t _ _ _ _ _ _ IV t o Wt C) as (_ & _ & [[]|K]).
  destruct t as [kd| | |i|t|t|t1 t2|alts|]; cbn in K.
  1,2,8,9: rewrite K; cbn; repeat split; discriminate.
  - destruct K as (v & -> & Cv). cbn. repeat split; try discriminate. intros a [= <-]. now exists TOther.
  - destruct K as (s & -> & Cv). cbn. repeat split; try discriminate. intros a [= <-]. exists i. auto.
  - destruct K as (_ & v & -> & Cv). cbn. repeat split; try discriminate. intros a [= <-]. exists t. auto.
  - destruct K as (v & -> & Cv). cbn. repeat split; try discriminate. intros a [= <-]. exists t. auto.
  - destruct K as (x & v & -> & Cx & Cv). apply UMap in Ut as (U1 & U2). apply HMap in Wt as (W1 & W2). cbn. repeat split; try discriminate; intros a [= <-]; [exists t1|exists t2]; auto.
Qed.
Lemma sinU_fields : forall h s, inv h -> sinU h s -> Forall (fun f => inU h (of_T f)) (so_fields (sh h s)).
Proof.
  intros h s IV (i & Ui & Wi & C). destruct (inv_s _ _ _ _ _ _ IV i s Wi C) as (_ & _ & [[]|K]). destruct K as (l & R & F).
  assert (A : forall p, In p l -> In (f_T (pf_desc p)) U /\ W (f_T (pf_desc p))) by eauto. clear R.
  induction F as [|f p fs l (B1 & B2 & B3 & B4) F IH]; constructor; [|apply IH; intros q Q; apply A; now right].
  exists (f_T (pf_desc p)). split; [apply A; now left|]. split; [apply A; now left|exact B4].
Qed.
Definition ftot (ok : heap -> nat -> Prop) (ft : heap -> nat -> heap * res unit) (k : nat) : Prop :=
  forall h o h' r, inv h -> ok h o -> count (open_f h) U < k -> ft h o = (h', r) -> r <> RFuel.
Lemma each_total : forall ok ft k, ftot ok ft k -> (forall h o h' r, ft h o = (h', r) -> sp h h') -> (forall h h' o, sp h h' -> ok h o -> ok h' o) ->
  forall l h h' r, inv h -> (forall o, In (Some o) l -> ok h o) -> count (open_f h) U < k -> each ft h l = (h', r) -> r <> RFuel.
Proof.
  intros ok ft k T SP OS. induction l as [|[o|] l IH]; intros h h' r IV A L E; cbn in E; [injection E as <- <-; discriminate| |].
  - destruct (ft h o) as [h1 r1] eqn:E1. pose proof (T _ _ _ _ IV (A o (or_introl eq_refl)) L E1) as N1. pose proof (SP _ _ _ _ E1) as S1. pose proof (open_sp _ _ S1).
    destruct r1; cbn in E; try (injection E as <- <-; congruence).
    apply (IH h1 h' r); [exact (spi _ _ _ _ S1 IV)| |lia|exact E]. intros x Hx. apply (OS h); [exact S1|]. apply A. now right.
  - apply (IH h h' r); auto. intros x Hx. apply A. now right.
Qed.
Lemma fields_loop_total : forall ft k, ftot inU ft k -> (forall h o h' r, ft h o = (h', r) -> sp h h') ->
  forall c h s n h' r, inv h -> sinU h s -> count (open_f h) U < k -> fields_loop ft h s n c = (h', r) -> r <> RFuel.
Proof.
  intros ft k T SP. induction c as [|c IH]; intros h s n h' r IV Us L E; cbn [fields_loop] in E; [injection E as <- <-; discriminate|].
  destruct (nth_error _ n) as [f|] eqn:N; [|injection E as <- <-; discriminate].
  destruct (finalizeField h f) as [f'| | |] eqn:FF; try (injection E as <- <-; discriminate).
  2: { unfold finalizeField in FF. destruct (linked _ _ _); [|discriminate]. destruct (finalize_field _ _ _); discriminate. }
  apply finalizeField_fstep in FF as (St & _).
  set (h1 := set_fields h s _) in *. assert (S1 : sp h h1) by (apply sp_set_fields; now apply (set_nth_fstep _ _ f)).
  pose proof (spi _ _ _ _ S1 IV) as IV1.
  match type of E with rbind (each ?a ?b ?c) _ = _ => destruct (each a b c) as [h2 r2] eqn:E2 end.
  pose proof (each_sp _ SP _ _ _ _ E2) as S2. pose proof (open_sp _ _ S1). pose proof (open_sp _ _ S2).
  assert (Uf : inU h1 (of_T f)).
  { apply (inU_sp h); [exact S1|]. pose proof (sinU_fields h s IV Us) as X. rewrite Forall_forall in X. exact (X f (nth_error_In _ _ N)). }
  destruct (inU_links h1 _ IV1 Uf) as (K1 & K2 & _).
  assert (N2 : r2 <> RFuel).
  { apply (each_total inU ft k T SP inU_sp _ _ _ _ IV1) with (3 := E2); [|lia]. intros o [[= <-]|[Ho|[Ho|[]]]]; auto. }
  destruct r2; cbn in E; try (injection E as <- <-; congruence).
  apply (IH h2 s (S n) h' r); [exact (spi _ _ _ _ S2 IV1)| |lia|exact E]. apply (sinU_sp h); [exact (sp_trans _ _ _ S1 S2)|exact Us].
Qed.
Lemma fin_total : forall fuel, ftot inU (finalizeType fuel) fuel /\ ftot sinU (finalizeStruct fuel) fuel.
Proof.
  induction fuel as [|k (IHt & IHs)]; (split; intros h o h' r IV Uo L E; [|]); try lia; cbn [finalizeType finalizeStruct] in E.
  - destruct (to_fin (th h o)) eqn:F; [injection E as <- <-; discriminate|].
    pose proof (sp_set_tfin h o) as S0. pose proof (spi _ _ _ _ S0 IV) as IV0.
    assert (L0 : count (open_f (set_tfin h o true)) U < k).
    { assert (count (open_f (set_tfin h o true)) U < count (open_f h) U); [|lia]. destruct Uo as (t & Ut & Wt & C).
      apply (count_lt _ _ U t); [intros u _; now apply open_sp_u|exact Ut|]. unfold open_f. cbn. rewrite C. cbn. rewrite Nat.eqb_refl, F. cbn. lia. }
    destruct (each (finalizeStruct k) _ _) as [h1 r1] eqn:E1. pose proof (each_sp _ (finS_sp k) _ _ _ _ E1) as S1. pose proof (open_sp _ _ S1) as L1.
    pose proof (spi _ _ _ _ S1 IV0) as IV1. pose proof (sp_trans _ _ _ S0 S1) as S01.
    assert (N1 : r1 <> RFuel).
    { apply (each_total sinU _ k IHs (finS_sp k) sinU_sp _ _ _ _ IV0) with (3 := E1); [|exact L0]. intros x [Hx|[]]. apply (sinU_sp h); [exact S0|]. now apply (inU_links h o IV Uo). }
    destruct r1; try (injection E as <- <-; congruence).
    destruct (each (finalizeType k) _ _) as [h2 r2] eqn:E2.
    assert (N2 : r2 <> RFuel).
    { apply (each_total inU _ k IHt (finT_sp k) inU_sp _ _ _ _ IV1) with (3 := E2); [|lia]. intros x [Hx|[]].
      destruct (inU_links h1 o IV1 (inU_sp _ _ _ S01 Uo)) as (_ & X & _). auto. }
    destruct r2; injection E as <- <-; congruence.
  - destruct (so_fin (sh h o)) eqn:F; [injection E as <- <-; discriminate|].
    pose proof (sp_set_sfin h o) as S0. pose proof (spi _ _ _ _ S0 IV) as IV0.
    assert (L0 : count (open_f (set_sfin h o true)) U < k).
    { assert (count (open_f (set_sfin h o true)) U < count (open_f h) U); [|lia]. destruct Uo as (t & Ut & Wt & C).
      apply (count_lt _ _ U (TStruct t)); [intros u _; now apply open_sp_u|exact Ut|]. unfold open_f. cbn. rewrite C. cbn. rewrite Nat.eqb_refl, F. cbn. lia. }
    destruct (fields_loop (finalizeType k) _ _ _ _) as [h1 r1] eqn:E1.
    assert (N1 : r1 <> RFuel) by (eapply (fields_loop_total _ k IHt (finT_sp k)); [exact IV0|apply (sinU_sp h); [exact S0|exact Uo]|exact L0|exact E1]).
    destruct r1; injection E as <- <-; congruence.
Qed.

Lemma get_total : forall h fuel t i h' r, state h -> strip t = TStruct i -> In (TStruct i) U -> WS i -> 2 * length U < fuel ->
  GetOrParse D fuel h t = (h', r) -> r <> RFuel.
Proof.
  intros h fuel t i h' r [IV FI CA] Et Ui Wi L E. pose proof (HStruct' _ Wi) as Wt. unfold GetOrParse in E. destruct (cache h t) as [s|]; [injection E as <- <-; discriminate|].
  fold (strip t) in E. rewrite Et in E.
  destruct (parseType D fuel h (TStruct i)) as [h1 r1] eqn:E1.
  assert (N1 : r1 <> RFuel).
  { apply (parseType_total fuel _ _ _ _ _ _ IV Ui Wt) with (2 := E1). assert (count (open_t h) U <= 1 * length U) by (apply count_bound; intros u; unfold open_t; destruct (ct h u); lia). lia. }
  destruct (PTI fuel _ _ _ _ _ _ IV E1 N1 ltac:(congruence)) as (IV1 & X1 & V1). destruct (V1 Wt) as (o & -> & Co). cbn [rbind] in E.
  destruct (inv_t _ _ _ _ _ _ IV1 _ _ Wt Co) as (_ & _ & [[]|(s & Eo & Cs)]). rewrite Eo in E. cbn [to_S] in E.
  destruct (finalizeStruct fuel h1 s) as [h2 r2] eqn:E2.
  assert (N2 : r2 <> RFuel).
  { apply (proj2 (fin_total fuel) h1 s h2 r2 IV1) with (3 := E2); [now exists i|]. assert (count (open_f h1) U <= 2 * length U); [|lia]. apply count_bound.
    intros u. unfold open_f. assert (forall b : bool, (if b then 0 else 1) <= 1) as B by (intros []; lia).
    destruct (ct h1 u) as [x|]; [pose proof (B (to_fin (th h1 x)))|]; (destruct u as [kd| | |j|u|u|u1 u2|alts|]; try lia; destruct (cs h1 j) as [y|]; [pose proof (B (so_fin (sh h1 y)))|]; lia). }
  destruct r2; cbn in E; injection E as <- <-; congruence.
Qed.
End Total.
End Watched.
End D.
