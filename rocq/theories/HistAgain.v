(** A call that has failed fails again. *)
From Coq Require Import Bool Lia.
From Verif Require Import Base Wire Coder MapTables Value Desc GoStr TagParse Parse StrFacts Hist HistSpec HistProofs HistInv HistFin.
Open Scope nat_scope.

(** * Parsing *)
Section Parse.
Variable D : nat -> godecl.

Lemma run_steps_keeps' : forall pt, (forall h t h' r, pt h t = (h', r) -> keeps h h') ->
  forall l h h' r, run_steps pt h l = (h', r) -> keeps h h'.
Proof.
  intros pt P. induction l as [|[slot w g| |] l IH]; intros h h' r E; cbn in E; try (injection E as <- <-; apply keeps_refl).
  destruct (parseStructTag (gf_tag g)) as [p|]; [|injection E as <- <-; apply keeps_refl].
  destruct (pt h (gf_type g)) as [h1 r1] eqn:E1. apply P in E1. destruct r1; cbn in E; try (injection E as <- <-; exact E1).
  destruct (run_steps pt h1 l) as [h2 r2] eqn:E2. apply IH in E2. pose proof (keeps_trans _ _ _ E1 E2). destruct r2; cbn in E; injection E as <- <-; assumption.
Qed.
Lemma keeps_put_struct : forall h h' i o, keeps h h' -> cs h i = None -> keeps h (put_struct h' i o).
Proof. intros h h' i o (A & B) N. split; cbn; [auto|]. intros j s E. destruct (Nat.eqb_spec j i); [congruence|auto]. Qed.
Lemma keeps_put_type : forall h h' i o, keeps h h' -> ct h i = None -> keeps h (put_type h' i o).
Proof. intros h h' i o (A & B) N. split; cbn; [|auto]. intros j s E. destruct (gotype_eqb_spec j i); [congruence|auto]. Qed.
Lemma parseStruct_keeps' : forall pt, (forall h t h' r, pt h t = (h', r) -> keeps h h') ->
  forall h i h' r, parseStruct D pt h i = (h', r) -> keeps h h'.
Proof.
  intros pt P h i h' r E. unfold parseStruct in E. destruct (cs h i) as [s|] eqn:C; [injection E as <- <-; apply keeps_refl|].
  pose proof (keeps_new_struct h i C) as K0. destruct (new_struct h i) as [h0 s]. cbn [fst] in K0.
  destruct (run_steps pt h0 (steps (D i))) as [h1 r1] eqn:R. pose proof (keeps_trans _ _ _ K0 (run_steps_keeps' pt P _ _ _ _ R)) as K.
  destruct r1 as [fs| | |]; try (injection E as <- <-; auto using keeps_put_struct).
  assert (K2 : keeps h (set_fields h1 s (sort_ofields fs))) by (eapply keeps_trans; [exact K|now apply keeps_same]).
  destruct (sort_ofields fs) as [|f l]; [injection E as <- <-; exact K2|].
  destruct (of_id f <? 0)%Z; [injection E as <- <-; exact K2|].
  destruct (build_tables _); injection E as <- <-; auto using keeps_put_struct.
Qed.
Lemma parseType_keeps' : forall fuel h t h' r, parseType D fuel h t = (h', r) -> keeps h h'.
Proof.
  induction fuel as [|k IH]; intros h t h' r' E; cbn [parseType] in E; [injection E as <- <-; apply keeps_refl|].
  destruct (ct h t) as [o|] eqn:C; [injection E as <- <-; apply keeps_refl|].
  pose proof (keeps_new_type h t C) as K0. destruct (new_type h t) as [h0 o]. cbn [fst] in K0.
  match type of E with (match ?b with _ => _ end) = _ => set (body := b) in E end.
  assert (B : keeps h (fst body)).
  { eapply keeps_trans; [exact K0|]. subst body. clear E.
    assert (SV : forall a b x, keeps a b -> keeps a (set_V b o x)) by (intros a b x [] ; split; auto).
    destruct t as [kd| | |i|t|t|t1 t2|alts|]; try apply keeps_refl.
    - destruct (parseType D k h0 TOther) as [h1 r1] eqn:E1. apply IH in E1. destruct r1; cbn; auto.
    - destruct (parseStruct D (parseType D k) h0 i) as [h1 r1] eqn:E1. apply (parseStruct_keeps' _ IH) in E1. destruct r1; cbn; auto.
    - destruct (parseType D k h0 t) as [h1 r1] eqn:E1. apply IH in E1. destruct r1; cbn; auto. 
    - destruct (parseType D k h0 t) as [h1 r1] eqn:E1. apply IH in E1. destruct r1; cbn; auto.
    - destruct (parseType D k h0 t1) as [h1 r1] eqn:E1. apply IH in E1. destruct r1 as [x| | |]; cbn [rbind fst]; auto.
      destruct (parseType D k (set_K h1 o x) t2) as [h2 r2] eqn:E2. apply IH in E2.
      assert (K2 : keeps h0 h2) by (eapply keeps_trans; [exact E1|]; destruct E2; split; auto). destruct r2; cbn; auto. }
  destruct body as [h1 r1]. cbn [fst] in B. destruct r1; injection E as <- <-; auto using keeps_put_type.
Qed.

Lemma parseType_cached : forall k h t h' o, parseType D k h t = (h', ROk o) -> ct h' t = Some o.
Proof.
  intros [|k] h t h' o' E; cbn [parseType] in E; [discriminate|].
  destruct (ct h t) as [o|] eqn:C; [injection E as <- <-; exact C|].
  assert (C0 : ct (fst (new_type h t)) t = Some (snd (new_type h t))) by (cbn; now destruct (gotype_eqb_spec t t)).
  destruct (new_type h t) as [h0 o]. cbn [fst snd] in C0.
  match type of E with (match ?b with _ => _ end) = _ => set (body := b) in E end.
  destruct body as [h1 r1] eqn:B. assert (h1 = h' /\ r1 = ROk o') as [-> ->] by (destruct r1; [injection E as <- <-; auto|discriminate..]). clear E.
  unfold body in B. clear body.
  destruct t as [kd| | |i|t|t|t1 t2|alts|]; try (injection B as <- <-; exact C0).
  - destruct (parseType D k h0 TOther) as [h1 [x| | |]] eqn:E1; try discriminate. injection B as <- <-. now apply (parseType_keeps' _ _ _ _ _ E1).
  - destruct (parseStruct D (parseType D k) h0 i) as [h1 [x| | |]] eqn:E1; try discriminate. injection B as <- <-.
    now apply (parseStruct_keeps' _ (parseType_keeps' k) _ _ _ _ E1).
  - destruct (parseType D k h0 t) as [h1 [x| | |]] eqn:E1; try discriminate. cbn in B. destruct (is_ptr t); [discriminate|]. injection B as <- <-. now apply (parseType_keeps' _ _ _ _ _ E1).
  - destruct (parseType D k h0 t) as [h1 [x| | |]] eqn:E1; try discriminate. injection B as <- <-. now apply (parseType_keeps' _ _ _ _ _ E1).
  - destruct (parseType D k h0 t1) as [h1 [x| | |]] eqn:E1; try discriminate. cbn [rbind] in B.
    destruct (parseType D k (set_K h1 o x) t2) as [h2 [y| | |]] eqn:E2; try discriminate. injection B as <- <-.
    apply (parseType_keeps' _ _ _ _ _ E2). cbn. now apply (parseType_keeps' _ _ _ _ _ E1).
Qed.

(** Heaps with the same types in their caches *)
Definition ceq (a b : heap) : Prop := (forall t, ct a t = None <-> ct b t = None) /\ (forall i, cs a i = None <-> cs b i = None).
Lemma ceq_refl : forall a, ceq a a.
Proof. intros a. split; tauto. Qed.
Lemma ceq_trans : forall a b c, ceq a b -> ceq b c -> ceq a c.
Proof. intros a b c (A & B) (A' & B'). split; intros; [rewrite A; apply A'|rewrite B; apply B']. Qed.
Lemma ceq_sym : forall a b, ceq a b -> ceq b a.
Proof. intros a b (A & B). split; intros; [rewrite A; tauto|rewrite B; tauto]. Qed.
Lemma ceq_same : forall a b, ct b = ct a -> cs b = cs a -> ceq a b.
Proof. intros a b E1 E2. split; intros; [rewrite E1|rewrite E2]; tauto. Qed.

(** A heap again with the struct that was deleted *)
Lemma ceq_new_struct : forall h1 h2 i s, cs h1 i = Some s -> ceq (put_struct h1 i None) h2 -> cs h2 i = None /\ ceq h1 (fst (new_struct h2 i)).
Proof.
  intros h1 h2 i s C (A & B). split; [apply B; cbn; now rewrite Nat.eqb_refl|]. split; cbn; [exact A|].
  intros j. specialize (B j). cbn in B. destruct (Nat.eqb_spec j i); [|exact B]. split; congruence.
Qed.
Lemma ceq_new_type : forall h1 h2 i s, ct h1 i = Some s -> ceq (put_type h1 i None) h2 -> ct h2 i = None /\ ceq h1 (fst (new_type h2 i)).
Proof.
  intros h1 h2 i s C (A & B). split; [apply A; cbn; now rewrite gotype_eqb_refl|]. split; cbn; [|exact B].
  intros j. specialize (A j). cbn in A. destruct (gotype_eqb_spec j i); [|exact A]. split; congruence.
Qed.
Lemma ceq_put_struct : forall a b i, ceq a b -> ceq (put_struct a i None) (put_struct b i None).
Proof. intros a b i (A & B). split; cbn; [exact A|]. intros j. destruct (Nat.eqb j i); [tauto|apply B]. Qed.
Lemma ceq_put_type : forall a b i, ceq a b -> ceq (put_type a i None) (put_type b i None).
Proof. intros a b i (A & B). split; cbn; [|exact B]. intros j. destruct (gotype_eqb j i); [tauto|apply A]. Qed.

Definition again (pt pt2 : heap -> gotype -> heap * res nat) : Prop :=
  forall h t h', (pt h t = (h', RErr) -> forall h2, ceq h' h2 -> exists h3, pt2 h2 t = (h3, RErr) /\ ceq h' h3).
Definition hits (pt pt2 : heap -> gotype -> heap * res nat) : Prop :=
  forall h h' t o h2, pt h t = (h', ROk o) -> (forall x, ct h' x <> None -> ct h2 x <> None) -> exists o2, pt2 h2 t = (h2, ROk o2).
Lemma parseType_hits : forall k k2, k <= k2 -> hits (parseType D k) (parseType D k2).
Proof.
  intros k k2 Hk h h' t o h2 E A. apply parseType_cached in E as C. destruct k as [|k]; [discriminate|]. destruct k2 as [|k2]; [lia|]. cbn [parseType].
  destruct (ct h2 t) as [o2|] eqn:C2; [eauto|]. exfalso. apply (A t); congruence.
Qed.

Lemma keeps_some : forall a b, keeps a b -> forall x, ct a x <> None -> ct b x <> None.
Proof. intros a b (A & _) x N. destruct (ct a x) eqn:E; [|easy]. apply A in E. congruence. Qed.
Lemma ceq_some : forall a b, ceq a b -> forall x, ct a x <> None -> ct b x <> None.
Proof. intros a b (A & _) x N E. apply N, A, E. Qed.

Lemma run_steps_hits : forall pt pt2, (forall h t h' r, pt h t = (h', r) -> keeps h h') -> hits pt pt2 ->
  forall l h h' fs h2, run_steps pt h l = (h', ROk fs) -> (forall x, ct h' x <> None -> ct h2 x <> None) ->
  exists fs2, run_steps pt2 h2 l = (h2, ROk fs2) /\ map of_p fs2 = map of_p fs.
Proof.
  intros pt pt2 K H. induction l as [|[slot w g| |] l IH]; intros h h' fs h2 E A; cbn in E; try discriminate; [injection E as <- <-; exists []; auto|].
  cbn. destruct (parseStructTag (gf_tag g)) as [p|]; [|discriminate].
  destruct (pt h (gf_type g)) as [h1 [o| | |]] eqn:E1; cbn in E; try discriminate.
  destruct (run_steps pt h1 l) as [h3 [fs2| | |]] eqn:E2; cbn in E; try discriminate. injection E as <- <-.
  pose proof (run_steps_keeps' pt K _ _ _ _ E2) as K2.
  destruct (H _ _ _ _ h2 E1) as (o2 & ->); [intros x X; apply A; eapply keeps_some; eauto|]. cbn.
  destruct (IH _ _ _ h2 E2 A) as (fs' & -> & M). cbn. eexists. split; [reflexivity|]. cbn. now rewrite M.
Qed.
Lemma run_steps_again : forall pt pt2, (forall h t h' r, pt h t = (h', r) -> keeps h h') -> hits pt pt2 -> again pt pt2 ->
  forall l h h' h2, run_steps pt h l = (h', RErr) -> ceq h' h2 -> exists h3, run_steps pt2 h2 l = (h3, RErr) /\ ceq h' h3.
Proof.
  intros pt pt2 K H G. induction l as [|[slot w g| |] l IH]; intros h h' h2 E A; cbn in E; try discriminate; cbn; [|injection E as <-; eauto].
  destruct (parseStructTag (gf_tag g)) as [p|]; [|injection E as <-; eauto].
  destruct (pt h (gf_type g)) as [h1 [o| | |]] eqn:E1; cbn in E; try discriminate.
  - destruct (run_steps pt h1 l) as [h3 [fs2| | |]] eqn:E2; cbn in E; try discriminate. injection E as <-.
    pose proof (run_steps_keeps' pt K _ _ _ _ E2) as K2.
    destruct (H _ _ _ _ h2 E1) as (o2 & ->); [intros x X; eapply ceq_some; [exact A|]; eapply keeps_some; eauto|]. cbn.
    destruct (IH _ _ h2 E2 A) as (h4 & -> & C). cbn. eauto.
  - injection E as <-. destruct (G _ _ _ E1 h2 A) as (h3 & -> & C). cbn. eauto.
Qed.
Lemma parseStruct_again : forall pt pt2, (forall h t h' r, pt h t = (h', r) -> keeps h h') -> hits pt pt2 -> again pt pt2 ->
  forall h i h' h2, parseStruct D pt h i = (h', RErr) -> ceq h' h2 -> exists h3, parseStruct D pt2 h2 i = (h3, RErr) /\ ceq h' h3.
Proof.
  intros pt pt2 K H G h i h' h2 E A. unfold parseStruct in E. destruct (cs h i) as [s|] eqn:C; [discriminate|].
  assert (C0 : cs (fst (new_struct h i)) i = Some (snd (new_struct h i))) by (cbn; now rewrite Nat.eqb_refl).
  destruct (new_struct h i) as [h0 s]. cbn [fst snd] in C0.
  destruct (run_steps pt h0 (steps (D i))) as [h1 r1] eqn:R. pose proof (run_steps_keeps' pt K _ _ _ _ R) as K1.
  assert (C1 : cs h1 i = Some s) by now apply K1.
  destruct r1 as [fs| | |]; try discriminate.
  - set (h1' := set_fields h1 s (sort_ofields fs)) in *. destruct (sort_ofields fs) as [|f l] eqn:S; [discriminate|].
    destruct (of_id f <? 0)%Z eqn:Neg; [discriminate|]. destruct (build_tables _) eqn:BT; [discriminate|]. injection E as <-.
    destruct (ceq_new_struct h1' h2 i s C1 A) as (C2 & A2). unfold parseStruct. rewrite C2. destruct (new_struct h2 i) as [h20 s2]. cbn [fst] in A2.
    destruct (run_steps_hits pt pt2 K H _ _ _ _ h20 R) as (fs2 & -> & M); [exact (ceq_some _ _ A2)|].
    pose proof (sort_map fs) as S1. pose proof (sort_map fs2) as S2. rewrite M, <- S1, S in S2. destruct (sort_ofields fs2) as [|f2 l2]; [discriminate|].
    cbn [map] in S2. injection S2 as P1 P2. unfold of_id in *. rewrite P1, Neg.
    assert (X : map (fun x => pf_desc (of_p x)) (f2 :: l2) = map (fun x => pf_desc (of_p x)) (f :: l)).
    { rewrite <- (map_map of_p pf_desc), <- (map_map of_p pf_desc (f :: l)). cbn [map]. now rewrite P1, P2. }
    rewrite X, BT. eexists. split; [reflexivity|]. apply ceq_put_struct. eapply ceq_trans; [exact A2|]. now apply ceq_same.
  - injection E as <-. destruct (ceq_new_struct h1 h2 i s C1 A) as (C2 & A2). unfold parseStruct. rewrite C2. destruct (new_struct h2 i) as [h20 s2]. cbn [fst] in A2.
    destruct (run_steps_again pt pt2 K H G _ _ _ h20 R A2) as (h3 & -> & A3). eexists. split; [reflexivity|]. now apply ceq_put_struct.
Qed.
Lemma parseType_again : forall k k2, k <= k2 -> again (parseType D k) (parseType D k2).
Proof.
  induction k as [|k IH]; intros k2 Hk h t h' E h2 A; cbn [parseType] in E; [discriminate|]. destruct k2 as [|k2]; [lia|]. apply le_S_n in Hk. specialize (IH _ Hk).
  pose proof (parseType_hits _ _ Hk) as HI.
  destruct (ct h t) as [o|] eqn:C; [discriminate|].
  assert (C0 : ct (fst (new_type h t)) t = Some (snd (new_type h t))) by (cbn; now rewrite gotype_eqb_refl).
  destruct (new_type h t) as [h0 o]. cbn [fst snd] in C0.
  match type of E with (match ?b with _ => _ end) = _ => set (body := b) in E end.
  destruct body as [h1 r1] eqn:B. assert (put_type h1 t None = h' /\ r1 = RErr) as [<- ->] by (destruct r1; [discriminate|injection E as <-; auto|discriminate..]). clear E.
  unfold body in B. clear body.
  assert (F : ct h1 t = Some o -> (forall h20 o2, ceq h1 h20 -> exists h3,
      match t with
      | TMap kt vt =>
          rbind (parseType D k2 h20 kt) (fun h1 x =>
          rbind (parseType D k2 (set_K h1 o2 x) vt) (fun h2 y => (set_V h2 o2 y, ROk o2)))
      | TStruct i => rbind (parseStruct D (parseType D k2) h20 i) (fun h1 s => (set_S h1 o2 s, ROk o2))
      | TSlice t => rbind (parseType D k2 h20 t) (fun h1 x => (set_V h1 o2 x, ROk o2))
      | TBytes => rbind (parseType D k2 h20 TOther) (fun h1 x => (set_V h1 o2 x, ROk o2))
      | TPtr t => rbind (parseType D k2 h20 t) (fun h1 x => (set_V h1 o2 x, if is_ptr t then RErr else ROk o2))
      | _ => (h20, ROk o2)
      end = (h3, RErr) /\ ceq h1 h3) -> exists h3, parseType D (S k2) h2 t = (h3, RErr) /\ ceq (put_type h1 t None) h3).
  { intros C1 F. destruct (ceq_new_type h1 h2 t o C1 A) as (C2 & A2). cbn [parseType]. rewrite C2. destruct (new_type h2 t) as [h20 o2]. cbn [fst] in A2.
    destruct (F h20 o2 A2) as (h3 & E3 & A3). rewrite E3. eexists. split; [reflexivity|]. now apply ceq_put_type. }
  destruct t as [kd| | |i|t|t|t1 t2|alts|]; try discriminate; apply F; clear F.
  - destruct (parseType D k h0 TOther) as [h3 [x| | |]] eqn:E1; try discriminate. cbn in B. injection B as <-. now apply (parseType_keeps' _ _ _ _ _ E1).
  - intros h20 o2 A2. destruct (parseType D k h0 TOther) as [h3 [x| | |]] eqn:E1; try discriminate. cbn in B. injection B as <-.
    destruct (IH _ _ _ E1 _ A2) as (h4 & -> & A4). cbn. eauto.
  - destruct (parseStruct D (parseType D k) h0 i) as [h3 [x| | |]] eqn:E1; try discriminate. cbn in B. injection B as <-. now apply (parseStruct_keeps' _ (parseType_keeps' k) _ _ _ _ E1).
  - intros h20 o2 A2. destruct (parseStruct D (parseType D k) h0 i) as [h3 [x| | |]] eqn:E1; try discriminate. cbn in B. injection B as <-.
    destruct (parseStruct_again _ _ (parseType_keeps' k) HI IH _ _ _ _ E1 A2) as (h4 & -> & A4). cbn. eauto.
  - destruct (parseType D k h0 t) as [h3 [x| | |]] eqn:E1; try discriminate; cbn in B; [destruct (is_ptr t); [|discriminate]|]; injection B as <-; now apply (parseType_keeps' _ _ _ _ _ E1).
  - intros h20 o2 A2. destruct (parseType D k h0 t) as [h3 [x| | |]] eqn:E1; try discriminate; cbn in B.
    + destruct (is_ptr t); [|discriminate]. injection B as <-. destruct (HI _ _ _ _ h20 E1) as (o3 & ->); [exact (ceq_some _ _ A2)|]. cbn. eexists. split; [reflexivity|].
      eapply ceq_trans; [exact A2|]. now apply ceq_same.
    + injection B as <-. destruct (IH _ _ _ E1 _ A2) as (h4 & -> & A4). cbn. eauto.
  - destruct (parseType D k h0 t) as [h3 [x| | |]] eqn:E1; try discriminate. cbn in B. injection B as <-. now apply (parseType_keeps' _ _ _ _ _ E1).
  - intros h20 o2 A2. destruct (parseType D k h0 t) as [h3 [x| | |]] eqn:E1; try discriminate. cbn in B. injection B as <-.
    destruct (IH _ _ _ E1 _ A2) as (h4 & -> & A4). cbn. eauto.
  - destruct (parseType D k h0 t1) as [h3 [x| | |]] eqn:E1; try discriminate; cbn [rbind] in B.
    + destruct (parseType D k (set_K h3 o x) t2) as [h4 [y| | |]] eqn:E2; try discriminate. cbn in B. injection B as <-.
      apply (parseType_keeps' _ _ _ _ _ E2). cbn. now apply (parseType_keeps' _ _ _ _ _ E1).
    + injection B as <-. now apply (parseType_keeps' _ _ _ _ _ E1).
  - intros h20 o2 A2. destruct (parseType D k h0 t1) as [h3 [x| | |]] eqn:E1; try discriminate; cbn [rbind] in B.
    + destruct (parseType D k (set_K h3 o x) t2) as [h4 [y| | |]] eqn:E2; try discriminate. cbn in B. injection B as <-.
      destruct (HI _ _ _ _ h20 E1) as (o3 & ->).
      { intros z Z. apply (ceq_some _ _ A2). apply (keeps_some _ _ (parseType_keeps' _ _ _ _ _ E2)). exact Z. }
      cbn [rbind]. destruct (IH _ _ _ E2 (set_K h20 o2 o3)) as (h5 & -> & A5); [eapply ceq_trans; [exact A2|now apply ceq_same]|]. cbn. eauto.
    + injection B as <-. destruct (IH _ _ _ E1 _ A2) as (h4 & -> & A4). cbn. eauto.
Qed.
End Parse.

(** * Finalization *)
Definition heq (a b : heap) : Prop := (forall o, th a o = th b o) /\ (forall s, sh a s = sh b s).
Lemma heq_refl : forall a, heq a a.
Proof. split; reflexivity. Qed.
Lemma heq_trans : forall a b c, heq a b -> heq b c -> heq a c.
Proof. intros a b c (A & B) (A' & B'). split; intros; [rewrite A; apply A'|rewrite B; apply B']. Qed.

Lemma linked_links : forall a b, (forall o, to_K (th a o) = to_K (th b o) /\ to_V (th a o) = to_V (th b o)) -> forall t o, linked a t o = linked b t o.
Proof.
  intros a b L. induction t as [kd| | |i|t IH|t IH|t1 IH1 t2 IH2|alts|]; intros o; cbn; try reflexivity.
  - destruct (L o) as (_ & ->). destruct (to_V (th b o)); auto.
  - destruct (L o) as (_ & ->). destruct (to_V (th b o)); auto.
  - destruct (L o) as (-> & ->). destruct (to_K (th b o)), (to_V (th b o)); auto. now rewrite IH1, IH2.
Qed.
Lemma linked_heq : forall a b t o, heq a b -> linked a t o = linked b t o.
Proof. intros a b t o (A & _). apply linked_links. intros x. rewrite A. auto. Qed.
Lemma linked_sp : forall a b t o, sp a b -> linked b t o = linked a t o.
Proof. intros a b t o S. apply linked_links. intros x. destruct (sp_t _ _ S x) as (_ & K & V & _). auto. Qed.

(** A field that is finalized *)
Definition fixed (f : ofield) : Prop := finalize_field (pf_key (of_p f)) (pf_val (of_p f)) (pf_desc (of_p f)) = Some (pf_desc (of_p f)).
Lemma fixed_fstep : forall f f', fixed f -> fstep f f' -> f' = f.
Proof.
  intros [[d k v] o] [[d' k' v'] o'] F (E1 & E2 & E3 & E4). unfold fixed in F. cbn in *. subst. f_equal. f_equal. destruct E4 as [->|E4]; [reflexivity|congruence].
Qed.
Lemma finalizeField_fixed : forall h f f', finalizeField h f = ROk f' -> fixed f' /\ fstep f f' /\ linked h (f_T (pf_desc (of_p f'))) (of_T f') = true /\ of_T f' = of_T f.
Proof.
  intros h f f' E. pose proof (finalizeField_fstep _ _ _ E) as (S & _). unfold finalizeField in E. destruct (linked _ _ _) eqn:L; [|discriminate].
  destruct (finalize_field _ _ _) as [d|] eqn:E1; [|discriminate]. injection E as <-. apply finalize_field_twice in E1 as (A & B). cbn. rewrite B. auto.
Qed.
Lemma nth_fsteps : forall l l' n f, Forall2 fstep l l' -> nth_error l n = Some f -> exists f', nth_error l' n = Some f' /\ fstep f f'.
Proof.
  intros l l' n f F. revert n. induction F as [|x y l l' S F IH]; intros [|n] E; cbn in *; try discriminate; [injection E as <-; eauto|auto].
Qed.
Lemma set_nth_nth : forall A (l : list A) n f g, nth_error l n = Some f -> nth_error (firstn n l ++ g :: skipn (S n) l) n = Some g.
Proof. intros A. induction l as [|x l IH]; intros [|n] f g E; cbn in *; try discriminate; [reflexivity|]. exact (IH n f g E). Qed.
Lemma set_nth_same : forall A (l : list A) n f, nth_error l n = Some f -> firstn n l ++ f :: skipn (S n) l = l.
Proof. intros A. induction l as [|x l IH]; intros [|n] f E; cbn in *; try discriminate; [congruence|]. f_equal. exact (IH n f E). Qed.

Section Fin.
Variables ft ft2 : heap -> nat -> heap * res unit.
Variable flag : heap -> nat -> bool.
Definition fin_again : Prop := forall h o h', ft h o = (h', RErr) -> forall h2, heq h' h2 -> exists h3, ft2 h2 o = (h3, RErr) /\ heq h' h3.
Hypothesis flags : forall a b, sp a b -> forall o, flag a o = true -> flag b o = true.
Hypothesis flags_heq : forall a b, heq a b -> forall o, flag a o = flag b o.
Hypothesis ft_sp : forall h o h' r, ft h o = (h', r) -> sp h h'.
Hypothesis ft_flag : forall h o h' r, ft h o = (h', ROk r) -> flag h' o = true.
Hypothesis ft2_hit : forall h o h' r, ft h o = (h', ROk r) -> forall h2, flag h2 o = true -> ft2 h2 o = (h2, ROk tt).
Hypothesis ft_again : fin_again.

Lemma each_hits : forall l h h' r, each ft h l = (h', ROk r) -> forall h2 h3, sp h' h2 -> heq h2 h3 -> each ft2 h3 l = (h3, ROk tt).
Proof.
  induction l as [|[o|] l IH]; intros h h' r E h2 h3 S Q; cbn in *; [reflexivity| |eauto].
  destruct (ft h o) as [h1 [u| | |]] eqn:E1; cbn in E; try discriminate.
  rewrite (ft2_hit _ _ _ _ E1 h3); [cbn; eapply IH; eauto|]. rewrite <- (flags_heq _ _ Q). apply (flags h1 h2); [|eapply ft_flag; eauto].
  eapply sp_trans; [eapply each_sp; eauto|exact S].
Qed.
Lemma each_again : forall l h h', each ft h l = (h', RErr) -> forall h2, heq h' h2 -> exists h3, each ft2 h2 l = (h3, RErr) /\ heq h' h3.
Proof.
  induction l as [|[o|] l IH]; intros h h' E h2 Q; cbn in *; [discriminate| |eauto].
  destruct (ft h o) as [h1 [u| | |]] eqn:E1; cbn in E; try discriminate.
  - rewrite (ft2_hit _ _ _ _ E1 h2); [cbn; eapply IH; eauto|]. rewrite <- (flags_heq _ _ Q). apply (flags h1 h'); [|eapply ft_flag; eauto]. eapply each_sp; eauto.
  - injection E as <-. destruct (ft_again _ _ _ E1 h2 Q) as (h3 & -> & Q3). cbn. eauto.
Qed.
Lemma fields_loop_again : forall c h s n h', fields_loop ft h s n c = (h', RErr) -> forall h2, heq h' h2 -> exists h3, fields_loop ft2 h2 s n c = (h3, RErr) /\ heq h' h3.
Proof.
  induction c as [|c IH]; intros h s n h' E h2 Q; cbn [fields_loop] in *; [discriminate|].
  destruct (nth_error (so_fields (sh h s)) n) as [f|] eqn:Nf; [|discriminate].
  destruct (finalizeField h f) as [f'| | |] eqn:FF; try discriminate.
  - apply finalizeField_fixed in FF as (Fx & St & L & ET).
    set (h1 := set_fields h s _) in *.
    assert (N1 : nth_error (so_fields (sh h1 s)) n = Some f') by (cbn; rewrite Nat.eqb_refl; cbn; eapply set_nth_nth; eauto).
    assert (T1 : forall o, th h1 o = th h o) by reflexivity.
    match type of E with rbind (each ?a ?b ?c) _ = _ => destruct (each a b c) as [h4 r4] eqn:E4 end.
    pose proof (each_sp _ ft_sp _ _ _ _ E4) as S4.
    assert (S : sp h1 h').
    { destruct r4; cbn in E; try discriminate; [|injection E as <-; exact S4]. eapply sp_trans; [exact S4|]. eapply fields_loop_sp; eauto. }
    destruct (nth_fsteps _ _ _ _ (proj2 (sp_s _ _ S s)) N1) as (f2 & N2 & St2). apply (fixed_fstep _ _ Fx) in St2 as ->.
    rewrite (proj2 Q s) in N2. rewrite N2.
    assert (FF2 : finalizeField h2 f' = ROk f').
    { unfold finalizeField. rewrite <- (linked_heq _ _ _ _ Q), (linked_sp _ _ _ _ S). rewrite <- (linked_links h h1) by (intros; rewrite T1; auto). rewrite L, Fx. now destruct f' as [[]]. }
    rewrite FF2. rewrite (set_nth_same _ _ _ _ N2).
    set (h5 := set_fields h2 s _).
    assert (Q5 : heq h' h5).
    { eapply heq_trans; [exact Q|]. split; [reflexivity|]. intros x. unfold h5, set_fields, set_struct. cbn. destruct (Nat.eqb_spec x s) as [->|]; [|reflexivity]. now destruct (sh h2 s). }
    assert (KV : to_K (th h5 (of_T f')) = to_K (th h1 (of_T f)) /\ to_V (th h5 (of_T f')) = to_V (th h1 (of_T f))).
    { rewrite ET, <- (proj1 Q5). destruct (sp_t _ _ S (of_T f)) as (_ & -> & -> & _). auto. }
    cbv zeta. destruct KV as (-> & ->). rewrite ET.
    destruct r4 as [u| | |]; cbn in E; try discriminate.
    + pose proof (fields_loop_sp _ ft_sp _ _ _ _ _ _ E) as S'.
      rewrite (each_hits _ _ _ _ E4 _ _ S' Q5). cbn. eapply IH; eauto.
    + injection E as <-. destruct (each_again _ _ _ E4 _ Q5) as (h6 & E6 & Q6). cbn in E6 |- *. rewrite E6. cbn. eauto.
  - injection E as <-. rewrite <- (proj2 Q s), Nf. unfold finalizeField in FF |- *. rewrite <- (linked_heq _ _ _ _ Q). destruct (linked _ _ _); [|discriminate].
    destruct (finalize_field _ _ _); [discriminate|]. eauto.
Qed.
End Fin.

Lemma flag_t : forall k h o h' r, finalizeType k h o = (h', ROk r) -> to_fin (th h' o) = true.
Proof.
  intros [|k] h o h' r E; cbn [finalizeType] in E; [discriminate|]. destruct (to_fin (th h o)) eqn:F; [injection E as <- <-; exact F|].
  destruct (each (finalizeStruct k) _ _) as [h1 r1] eqn:E1. apply (each_sp _ (finS_sp k)) in E1. destruct r1; try discriminate.
  destruct (each (finalizeType k) _ _) as [h2 r2] eqn:E2. apply (each_sp _ (finT_sp k)) in E2. destruct r2; try discriminate. injection E as <- <-.
  apply (sp_tf _ _ E2), (sp_tf _ _ E1). cbn. now rewrite Nat.eqb_refl.
Qed.
Lemma flag_s : forall k h o h' r, finalizeStruct k h o = (h', ROk r) -> so_fin (sh h' o) = true.
Proof.
  intros [|k] h o h' r E; cbn [finalizeStruct] in E; [discriminate|]. destruct (so_fin (sh h o)) eqn:F; [injection E as <- <-; exact F|].
  destruct (fields_loop (finalizeType k) _ _ _ _) as [h1 r1] eqn:E1. apply (fields_loop_sp _ (finT_sp k)) in E1. destruct r1; try discriminate. injection E as <- <-.
  apply (sp_sf _ _ E1). cbn. now rewrite Nat.eqb_refl.
Qed.
Lemma hit_t : forall k k2, k <= k2 -> forall h o h' r, finalizeType k h o = (h', ROk r) -> forall h2, to_fin (th h2 o) = true -> finalizeType k2 h2 o = (h2, ROk tt).
Proof. intros [|k] [|k2] L h o h' r E h2 F; try discriminate; [lia|]. cbn [finalizeType]. now rewrite F. Qed.
Lemma hit_s : forall k k2, k <= k2 -> forall h o h' r, finalizeStruct k h o = (h', ROk r) -> forall h2, so_fin (sh h2 o) = true -> finalizeStruct k2 h2 o = (h2, ROk tt).
Proof. intros [|k] [|k2] L h o h' r E h2 F; try discriminate; [lia|]. cbn [finalizeStruct]. now rewrite F. Qed.

Lemma fin_again_all : forall k k2, k <= k2 -> fin_again (finalizeType k) (finalizeType k2) /\ fin_again (finalizeStruct k) (finalizeStruct k2).
Proof.
  induction k as [|k IH]; intros k2 Hk; [split; intros h o h' E; discriminate|]. destruct k2 as [|k2]; [lia|]. apply le_S_n in Hk. destruct (IH _ Hk) as (IHt & IHs). split.
  - intros h o h' E h2 Q. cbn [finalizeType] in E. destruct (to_fin (th h o)) eqn:F; [discriminate|].
    set (h0 := set_tfin h o true) in *. assert (F0 : to_fin (th h0 o) = true) by (cbn; now rewrite Nat.eqb_refl).
    assert (S0 : to_S (th h0 o) = to_S (th h o)) by (cbn; now rewrite Nat.eqb_refl).
    destruct (each (finalizeStruct k) h0 _) as [h1 r1] eqn:E1. pose proof (each_sp _ (finS_sp k) _ _ _ _ E1) as P1.
    assert (START : forall x, sp h0 x -> heq (set_tfin x o false) h2 -> to_fin (th h2 o) = false /\ heq x (set_tfin h2 o true) /\ to_S (th h2 o) = to_S (th h o)).
    { intros x P (A & B). pose proof (A o) as Ao. cbn in Ao. rewrite Nat.eqb_refl in Ao. split; [now rewrite <- Ao|]. split; [|rewrite <- Ao; cbn; rewrite <- S0; apply (sp_t _ _ P)].
      split; [|exact B]. intros y. pose proof (A y) as Ay. cbn in Ay |- *. destruct (Nat.eqb_spec y o) as [Ey|]; [subst y|exact Ay].
      rewrite <- Ao. cbn. pose proof (sp_tf _ _ P o F0) as Fx. destruct (th x o). cbn in *. now subst. }
    assert (END : forall x y, heq x y -> heq (set_tfin x o false) (set_tfin y o false)).
    { intros x y (A & B). split; [|exact B]. intros z. cbn. destruct (Nat.eqb z o); [now rewrite A|apply A]. }
    destruct r1 as [u| | |]; try discriminate.
    + destruct (each (finalizeType k) h1 _) as [h3 r3] eqn:E3. pose proof (each_sp _ (finT_sp k) _ _ _ _ E3) as P3. destruct r3; try discriminate. injection E as <-.
      destruct (START h3 (sp_trans _ _ _ P1 P3) Q) as (F2 & Q2 & S2). cbn [finalizeType]. rewrite F2, S2.
      rewrite (each_hits (finalizeStruct k) (finalizeStruct k2) (fun h s => so_fin (sh h s)) (fun a b S o => sp_sf _ _ S o)
        (fun a b Q o => f_equal so_fin (proj2 Q o)) (finS_sp k) (flag_s k) (hit_s k k2 Hk) _ _ _ _ E1 _ _ P3 Q2).
      assert (V2 : to_V (th (set_tfin h2 o true) o) = to_V (th h1 o)) by (rewrite <- (proj1 Q2 o); apply (sp_t _ _ P3)). rewrite V2.
      destruct (each_again (finalizeType k) (finalizeType k2) (fun h s => to_fin (th h s)) (fun a b S o => sp_tf _ _ S o)
        (fun a b Q o => f_equal to_fin (proj1 Q o)) (finT_sp k) (flag_t k) (hit_t k k2 Hk) IHt _ _ _ E3 _ Q2) as (h4 & E4 & Q4).
      rewrite E4. eexists. split; [reflexivity|]. now apply END.
    + injection E as <-. destruct (START h1 P1 Q) as (F2 & Q2 & S2). cbn [finalizeType]. rewrite F2, S2.
      destruct (each_again (finalizeStruct k) (finalizeStruct k2) (fun h s => so_fin (sh h s)) (fun a b S o => sp_sf _ _ S o)
        (fun a b Q o => f_equal so_fin (proj2 Q o)) (finS_sp k) (flag_s k) (hit_s k k2 Hk) IHs _ _ _ E1 _ Q2) as (h4 & E4 & Q4).
      rewrite E4. eexists. split; [reflexivity|]. now apply END.
  - intros h s h' E h2 Q. cbn [finalizeStruct] in E. destruct (so_fin (sh h s)) eqn:F; [discriminate|].
    set (h0 := set_sfin h s true) in *. assert (F0 : so_fin (sh h0 s) = true) by (cbn; now rewrite Nat.eqb_refl).
    assert (L0 : so_fields (sh h0 s) = so_fields (sh h s)) by (cbn; now rewrite Nat.eqb_refl).
    destruct (fields_loop (finalizeType k) h0 s 0 _) as [h1 r1] eqn:E1. pose proof (fields_loop_sp _ (finT_sp k) _ _ _ _ _ _ E1) as P1. destruct r1; try discriminate. injection E as <-.
    destruct Q as (A & B). pose proof (B s) as Bs. cbn in Bs. rewrite Nat.eqb_refl in Bs.
    assert (Q2 : heq h1 (set_sfin h2 s true)).
    { split; [exact A|]. intros y. pose proof (B y) as By. cbn in By |- *. destruct (Nat.eqb_spec y s) as [Ey|]; [subst y|exact By].
      rewrite <- Bs. cbn. pose proof (sp_sf _ _ P1 s F0) as Fx. destruct (sh h1 s). cbn in *. now subst. }
    cbn [finalizeStruct]. rewrite <- Bs. cbn [so_fin so_fields].
    assert (Len : length (so_fields (sh h1 s)) = length (so_fields (sh h s))).
    { rewrite <- L0. symmetry. eapply Forall2_len. apply (sp_s _ _ P1 s). }
    rewrite Len.
    destruct (fields_loop_again (finalizeType k) (finalizeType k2) (fun h s => to_fin (th h s)) (fun a b S o => sp_tf _ _ S o)
        (fun a b Q o => f_equal to_fin (proj1 Q o)) (finT_sp k) (flag_t k) (hit_t k k2 Hk) IHt _ _ _ _ _ E1 _ Q2) as (h4 & E4 & Q4).
    rewrite E4. eexists. split; [reflexivity|]. destruct Q4 as (A4 & B4). split; [exact A4|]. intros z. cbn. destruct (Nat.eqb z s); [now rewrite B4|apply B4].
Qed.

(** * GetOrParse *)
Lemma parse_cache : forall D k h t h' r, parseType D k h t = (h', r) -> cache h' = cache h.
Proof.
  intros D. assert (RS : forall pt, (forall h t h' r, pt h t = (h', r) -> cache h' = cache h) -> forall l h h' r, run_steps pt h l = (h', r) -> cache h' = cache h).
  { intros pt P. induction l as [|[slot w g| |] l IH]; intros h h' r E; cbn in E; try (injection E as <- <-; reflexivity).
    destruct (parseStructTag _); [|injection E as <- <-; reflexivity]. destruct (pt h _) as [h1 r1] eqn:E1. apply P in E1. destruct r1; cbn in E; try (injection E as <- <-; exact E1).
    destruct (run_steps pt h1 l) as [h2 r2] eqn:E2. apply IH in E2. destruct r2; cbn in E; injection E as <- <-; congruence. }
  induction k as [|k IH]; intros h t h' r E; cbn [parseType] in E; [injection E as <- <-; reflexivity|].
  destruct (ct h t) as [o|]; [injection E as <- <-; reflexivity|]. assert (C0 : cache (fst (new_type h t)) = cache h) by reflexivity. destruct (new_type h t) as [h0 o]. cbn [fst] in C0.
  match type of E with (match ?b with _ => _ end) = _ => set (body := b) in E end.
  assert (B : cache (fst body) = cache h).
  { subst body. clear E. rewrite <- C0. destruct t as [kd| | |i|t|t|t1 t2|alts|]; try reflexivity.
    - destruct (parseType D k h0 TOther) as [h1 r1] eqn:E1. apply IH in E1. destruct r1; exact E1.
    - destruct (parseStruct D (parseType D k) h0 i) as [h1 r1] eqn:E1. assert (X : cache h1 = cache h0); [|destruct r1; exact X].
      unfold parseStruct in E1. destruct (cs h0 i); [injection E1 as <- <-; reflexivity|].
      assert (CS : cache (fst (new_struct h0 i)) = cache h0) by reflexivity. destruct (new_struct h0 i) as [h2 s]. cbn [fst] in CS.
      destruct (run_steps _ h2 _) as [h3 r3] eqn:E3. apply (RS _ IH) in E3. destruct r3; try (injection E1 as <- <-; cbn; congruence).
      destruct (sort_ofields a) as [|f l]; [injection E1 as <- <-; cbn; congruence|]. destruct (of_id f <? 0)%Z; [injection E1 as <- <-; cbn; congruence|].
      destruct (build_tables _); injection E1 as <- <-; cbn; congruence.
    - destruct (parseType D k h0 t) as [h1 r1] eqn:E1. apply IH in E1. destruct r1; exact E1.
    - destruct (parseType D k h0 t) as [h1 r1] eqn:E1. apply IH in E1. destruct r1; exact E1.
    - destruct (parseType D k h0 t1) as [h1 r1] eqn:E1. apply IH in E1. destruct r1 as [x| | |]; try exact E1. cbn [rbind].
      destruct (parseType D k (set_K h1 o x) t2) as [h2 r2] eqn:E2. apply IH in E2. destruct r2; cbn in *; congruence. }
  destruct body as [h1 r1]. cbn [fst] in B. destruct r1; injection E as <- <-; exact B.
Qed.

Lemma fails_again : forall D fuel fuel2 h t h', fuel <= fuel2 -> GetOrParse D fuel h t = (h', RErr) -> exists h2, GetOrParse D fuel2 h' t = (h2, RErr).
Proof.
  intros D fuel fuel2 h t h' L E. unfold GetOrParse in E. destruct (cache h t) eqn:C; [discriminate|].
  set (u := match t with TPtr t => t | t => t end) in *.
  assert (OTHER : (forall i, u <> TStruct i) -> h' = h -> exists h2, GetOrParse D fuel2 h' t = (h2, RErr)).
  { intros N ->. unfold GetOrParse. rewrite C. fold u. destruct u; eauto. now destruct (N id). }
  destruct u as [kd| | |i|u'|u'|t1 t2|alts|] eqn:U; try (injection E as <-; apply OTHER; [discriminate|reflexivity]).
  clear OTHER. destruct (parseType D fuel h (TStruct i)) as [h1 r1] eqn:E1. pose proof (parse_cache _ _ _ _ _ _ E1) as C1.
  destruct r1 as [o| | |]; cbn in E; try discriminate.
  - destruct (to_S (th h1 o)) as [s|] eqn:S; [|discriminate]. destruct (finalizeStruct fuel h1 s) as [h2 r2] eqn:E2. pose proof (finS_sp _ _ _ _ _ E2) as P.
    destruct r2; cbn in E; try discriminate. injection E as <-.
    unfold GetOrParse. rewrite (sp_cache _ _ P), C1, C. fold u. rewrite U.
    assert (CT : ct h2 (TStruct i) = Some o) by (rewrite (sp_ct _ _ P); eapply parseType_cached; eauto).
    assert (PT : parseType D fuel2 h2 (TStruct i) = (h2, ROk o)).
    { destruct fuel as [|k]; [discriminate|]. destruct fuel2 as [|k2]; [lia|]. cbn [parseType]. now rewrite CT. }
    rewrite PT. cbn. destruct (sp_t _ _ P o) as (_ & _ & _ & ->). rewrite S.
    destruct (proj2 (fin_again_all fuel fuel2 L) _ _ _ E2 h2 (heq_refl _)) as (h3 & -> & _). cbn. eauto.
  - injection E as <-. destruct (parseType_again D fuel fuel2 L _ _ _ E1 h1 (ceq_refl D _)) as (h3 & E3 & _).
    unfold GetOrParse. rewrite C1, C. fold u. rewrite U, E3. cbn. eauto.
Qed.
