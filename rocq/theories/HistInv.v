(** Invariants of descriptor parsing with its caches: the types parsed. *)
From Coq Require Import Bool Lia.
From Verif Require Import Base Wire Coder MapTables Value Desc GoStr TagParse Parse StrFacts Hist HistSpec HistProofs.
Open Scope nat_scope.

Notation th := h_types.
Notation sh := h_structs.
Notation ct := cachedTypes.
Notation cs := cachedStructs.

(** * Frame: a call of parseType only writes objects it has allocated *)
Record frame (h h' : heap) : Prop := {
  fr_wft : forall o, h_tn h' <= o -> to_rt (th h' o) = TPtr (TPtr TOther);
  fr_wfs : forall s, h_sn h' <= s -> so_id (sh h' s) = None;
  fr_tn : h_tn h <= h_tn h';
  fr_sn : h_sn h <= h_sn h';
  fr_t : forall o, o < h_tn h -> th h' o = th h o;
  fr_s : forall s, s < h_sn h -> sh h' s = sh h s;
  fr_cache : cache h' = cache h;
  fr_tfin : forall o, h_tn h <= o < h_tn h' -> to_fin (th h' o) = false;
  fr_sfin : forall s, h_sn h <= s < h_sn h' -> so_fin (sh h' s) = false }.
Definition wf (h : heap) : Prop := frame h h.

Lemma frame_wf : forall h h', frame h h' -> wf h'.
Proof. intros h h' []. constructor; auto; intros; lia. Qed.
Lemma frame_trans : forall a b c, frame a b -> frame b c -> frame a c.
Proof.
  intros a b c [] []. constructor; auto; try lia; try congruence.
  - intros o L. rewrite fr_t1 by lia. auto.
  - intros o L. rewrite fr_s1 by lia. auto.
  - intros o L. destruct (Nat.lt_ge_cases o (h_tn b)); [rewrite fr_t1 by assumption; apply fr_tfin0|apply fr_tfin1]; lia.
  - intros o L. destruct (Nat.lt_ge_cases o (h_sn b)); [rewrite fr_s1 by assumption; apply fr_sfin0|apply fr_sfin1]; lia.
Qed.
Lemma frame_new_type : forall h t, wf h -> frame h (fst (new_type h t)).
Proof.
  intros h t []. constructor; cbn; auto; intros o L.
  - destruct (Nat.eqb_spec o (h_tn h)); [lia|]. apply fr_wft0. lia.
  - destruct (Nat.eqb_spec o (h_tn h)); [lia|reflexivity].
  - destruct (Nat.eqb_spec o (h_tn h)); [reflexivity|lia].
Qed.
Lemma frame_new_struct : forall h t, wf h -> frame h (fst (new_struct h t)).
Proof.
  intros h t []. constructor; cbn; auto; intros o L.
  - destruct (Nat.eqb_spec o (h_sn h)); [lia|]. apply fr_wfs0. lia.
  - destruct (Nat.eqb_spec o (h_sn h)); [lia|reflexivity].
  - destruct (Nat.eqb_spec o (h_sn h)); [reflexivity|lia].
Qed.
Lemma frame_set_type : forall h h' o x, frame h h' -> h_tn h <= o < h_tn h' -> to_fin x = false -> frame h (set_type h' o x).
Proof.
  intros h h' o x [] R X. constructor; cbn; auto; intros a L; destruct (Nat.eqb_spec a o); auto; lia.
Qed.
Lemma frame_set_struct : forall h h' o x, frame h h' -> h_sn h <= o < h_sn h' -> so_fin x = false -> frame h (set_struct h' o x).
Proof.
  intros h h' o x [] R X. constructor; cbn; auto; intros a L; destruct (Nat.eqb_spec a o); auto; lia.
Qed.
Lemma frame_put_type : forall h h' t o, frame h h' -> frame h (put_type h' t o).
Proof. intros h h' t o []. constructor; cbn; auto. Qed.
Lemma frame_put_struct : forall h h' t o, frame h h' -> frame h (put_struct h' t o).
Proof. intros h h' t o []. constructor; cbn; auto. Qed.

Lemma run_steps_frame : forall pt, (forall h t h' r, pt h t = (h', r) -> wf h -> frame h h') ->
  forall l h h' r, run_steps pt h l = (h', r) -> wf h -> frame h h'.
Proof.
  intros pt P. induction l as [|[slot w g| |] l IH]; intros h h' r E Hw; cbn in E; try (injection E as <- <-; exact Hw).
  destruct (parseStructTag (gf_tag g)) as [p|]; [|injection E as <- <-; exact Hw].
  destruct (pt h (gf_type g)) as [h1 r1] eqn:E1. pose proof (P _ _ _ _ E1 Hw) as F1.
  destruct r1 as [o| | |]; cbn in E; try (injection E as <- <-; exact F1).
  destruct (run_steps pt h1 l) as [h2 r2] eqn:E2. pose proof (IH _ _ _ E2 (frame_wf _ _ F1)) as F2.
  pose proof (frame_trans _ _ _ F1 F2). destruct r2; cbn in E; injection E as <- <-; assumption.
Qed.

Section D.
Variable D : nat -> godecl.

Lemma parseStruct_frame : forall pt, (forall h t h' r, pt h t = (h', r) -> wf h -> frame h h') ->
  forall h i h' r, parseStruct D pt h i = (h', r) -> wf h -> frame h h'.
Proof.
  intros pt P h i h' r E Hw. unfold parseStruct in E. destruct (cs h i) as [s|]; [injection E as <- <-; exact Hw|].
  pose proof (frame_new_struct h i Hw) as F0. destruct (new_struct h i) as [h0 s] eqn:N. cbn [fst] in F0.
  assert (s = h_sn h /\ h_sn h0 = S s) as (Es & Es') by (injection N as <- <-; auto).
  destruct (run_steps pt h0 (steps (D i))) as [h1 r1] eqn:R.
  pose proof (run_steps_frame pt P _ _ _ _ R (frame_wf _ _ F0)) as F1. pose proof (frame_trans _ _ _ F0 F1) as F.
  destruct r1 as [fs| | |]; try (injection E as <- <-; auto using frame_put_struct).
  assert (F2 : frame h (set_fields h1 s (sort_ofields fs))).
  { apply frame_set_struct; [exact F|pose proof (fr_sn _ _ F1); lia|]. cbn. apply (fr_sfin _ _ F). pose proof (fr_sn _ _ F1). lia. }
  destruct (sort_ofields fs) as [|f l]; [injection E as <- <-; exact F2|].
  destruct (of_id f <? 0)%Z; [injection E as <- <-; exact F2|].
  destruct (build_tables _); injection E as <- <-; auto using frame_put_struct.
Qed.
Lemma parseType_frame : forall fuel h t h' r, parseType D fuel h t = (h', r) -> wf h -> frame h h'.
Proof.
  induction fuel as [|k IH]; intros h t h' r E Hw; cbn [parseType] in E; [injection E as <- <-; exact Hw|].
  destruct (ct h t) as [o|]; [injection E as <- <-; exact Hw|].
  pose proof (frame_new_type h t Hw) as F0. destruct (new_type h t) as [h0 o] eqn:N. cbn [fst] in F0.
  assert (o = h_tn h /\ h_tn h0 = S o) as (Eo & Eo') by (injection N as <- <-; auto).
  assert (SETX : forall h1 x, frame h h1 -> h_tn h0 <= h_tn h1 -> to_fin x = to_fin (th h1 o) -> frame h (set_type h1 o x)).
  { intros h1 x F L X. apply frame_set_type; [exact F|lia|]. rewrite X. apply (fr_tfin _ _ F). lia. }
  match type of E with (match ?b with _ => _ end) = _ => set (body := b) in E end.
  assert (B : frame h (fst body)).
  { unfold body. clear E body. destruct t as [kd| | |i|t|t|t1 t2|alts|]; cbn [fst]; try exact F0.
    - destruct (parseType D k h0 TOther) as [h1 r1] eqn:E1. pose proof (IH _ _ _ _ E1 (frame_wf _ _ F0)) as F1.
      pose proof (frame_trans _ _ _ F0 F1). pose proof (fr_tn _ _ F1). destruct r1; cbn; auto. apply SETX; auto.
    - destruct (parseStruct D (parseType D k) h0 i) as [h1 r1] eqn:E1.
      pose proof (parseStruct_frame _ IH _ _ _ _ E1 (frame_wf _ _ F0)) as F1.
      pose proof (frame_trans _ _ _ F0 F1). pose proof (fr_tn _ _ F1). destruct r1; cbn; auto. apply SETX; auto.
    - destruct (parseType D k h0 t) as [h1 r1] eqn:E1. pose proof (IH _ _ _ _ E1 (frame_wf _ _ F0)) as F1.
      pose proof (frame_trans _ _ _ F0 F1). pose proof (fr_tn _ _ F1). destruct r1; cbn; auto. apply SETX; auto.
    - destruct (parseType D k h0 t) as [h1 r1] eqn:E1. pose proof (IH _ _ _ _ E1 (frame_wf _ _ F0)) as F1.
      pose proof (frame_trans _ _ _ F0 F1). pose proof (fr_tn _ _ F1). destruct r1; cbn; auto. apply SETX; auto.
    - destruct (parseType D k h0 t1) as [h1 r1] eqn:E1. pose proof (IH _ _ _ _ E1 (frame_wf _ _ F0)) as F1.
      pose proof (frame_trans _ _ _ F0 F1) as F01. pose proof (fr_tn _ _ F1). destruct r1 as [x| | |]; cbn [rbind]; auto.
      assert (FK : frame h (set_K h1 o x)) by (apply SETX; auto).
      destruct (parseType D k (set_K h1 o x) t2) as [h2 r2] eqn:E2. pose proof (IH _ _ _ _ E2 (frame_wf _ _ FK)) as F2.
      pose proof (frame_trans _ _ _ FK F2). pose proof (fr_tn _ _ F2) as L2. cbn in L2. destruct r2; cbn; auto. apply SETX; auto. lia. }
  destruct body as [h1 r1]. cbn [fst] in B. destruct r1; injection E as <- <-; auto using frame_put_type.
Qed.

(** * A call that succeeds deletes nothing *)
Definition keeps (h h' : heap) : Prop :=
  (forall t o, ct h t = Some o -> ct h' t = Some o) /\ (forall i s, cs h i = Some s -> cs h' i = Some s).
Lemma keeps_refl : forall h, keeps h h.
Proof. split; auto. Qed.
Lemma keeps_trans : forall a b c, keeps a b -> keeps b c -> keeps a c.
Proof. intros a b c [] []. split; auto. Qed.
Lemma keeps_same : forall h h', ct h' = ct h -> cs h' = cs h -> keeps h h'.
Proof. intros h h' E1 E2. split; intros; congruence. Qed.
Lemma keeps_new_type : forall h t, ct h t = None -> keeps h (fst (new_type h t)).
Proof. intros h t N. split; cbn; [|auto]. intros x o E. destruct (gotype_eqb_spec x t); congruence. Qed.
Lemma keeps_new_struct : forall h t, cs h t = None -> keeps h (fst (new_struct h t)).
Proof. intros h t N. split; cbn; [auto|]. intros x o E. destruct (Nat.eqb_spec x t); congruence. Qed.

Lemma run_steps_keeps : forall pt, (forall h t h' o, pt h t = (h', ROk o) -> keeps h h') ->
  forall l h h' fs, run_steps pt h l = (h', ROk fs) -> keeps h h'.
Proof.
  intros pt P. induction l as [|[slot w g| |] l IH]; intros h h' fs E; cbn in E; try discriminate; [injection E as <- <-; apply keeps_refl|].
  destruct (parseStructTag (gf_tag g)) as [p|]; [|discriminate].
  destruct (pt h (gf_type g)) as [h1 [o| | |]] eqn:E1; cbn in E; try discriminate.
  destruct (run_steps pt h1 l) as [h2 [fs2| | |]] eqn:E2; cbn in E; try discriminate. injection E as <- <-.
  eapply keeps_trans; [exact (P _ _ _ _ E1)|exact (IH _ _ _ E2)].
Qed.
Lemma parseStruct_keeps : forall pt, (forall h t h' o, pt h t = (h', ROk o) -> keeps h h') ->
  forall h i h' s, parseStruct D pt h i = (h', ROk s) -> keeps h h'.
Proof.
  intros pt P h i h' s0 E. unfold parseStruct in E. destruct (cs h i) as [s|] eqn:C; [injection E as <- <-; apply keeps_refl|].
  pose proof (keeps_new_struct h i C) as K0. destruct (new_struct h i) as [h0 s]. cbn [fst] in K0.
  destruct (run_steps pt h0 (steps (D i))) as [h1 [fs| | |]] eqn:R; try discriminate.
  pose proof (keeps_trans _ _ _ K0 (run_steps_keeps pt P _ _ _ _ R)) as K.
  assert (K2 : keeps h (set_fields h1 s (sort_ofields fs))) by (eapply keeps_trans; [exact K|now apply keeps_same]).
  destruct (sort_ofields fs) as [|f l]; [injection E as <- <-; exact K2|].
  destruct (of_id f <? 0)%Z; [discriminate|].
  destruct (build_tables _); [|discriminate]. injection E as <- <-. exact K2.
Qed.
Lemma parseType_keeps : forall fuel h t h' o, parseType D fuel h t = (h', ROk o) -> keeps h h'.
Proof.
  induction fuel as [|k IH]; intros h t h' o' E; cbn [parseType] in E; [discriminate|].
  destruct (ct h t) as [o|] eqn:C; [injection E as <- <-; apply keeps_refl|].
  pose proof (keeps_new_type h t C) as K0. destruct (new_type h t) as [h0 o]. cbn [fst] in K0.
  match type of E with (match ?b with _ => _ end) = _ => set (body := b) in E end.
  destruct body as [h1 r1] eqn:B. assert (h1 = h' /\ r1 = ROk o') as [-> ->] by (destruct r1; [injection E as <- <-; auto|discriminate..]). clear E.
  eapply keeps_trans; [exact K0|]. unfold body in B. clear body.
  destruct t as [kd| | |i|t|t|t1 t2|alts|]; try (injection B as <- <-; apply keeps_refl).
  - destruct (parseType D k h0 TOther) as [h1 [x| | |]] eqn:E1; try discriminate. injection B as <- <-. eapply keeps_trans; [exact (IH _ _ _ _ E1)|now apply keeps_same].
  - destruct (parseStruct D (parseType D k) h0 i) as [h1 [x| | |]] eqn:E1; try discriminate. injection B as <- <-.
    eapply keeps_trans; [exact (parseStruct_keeps _ IH _ _ _ _ E1)|now apply keeps_same].
  - destruct (parseType D k h0 t) as [h1 [x| | |]] eqn:E1; try discriminate. cbn in B. destruct (is_ptr t); [discriminate|]. injection B as <- <-.
    eapply keeps_trans; [exact (IH _ _ _ _ E1)|now apply keeps_same].
  - destruct (parseType D k h0 t) as [h1 [x| | |]] eqn:E1; try discriminate. injection B as <- <-. eapply keeps_trans; [exact (IH _ _ _ _ E1)|now apply keeps_same].
  - destruct (parseType D k h0 t1) as [h1 [x| | |]] eqn:E1; try discriminate. cbn [rbind] in B.
    destruct (parseType D k (set_K h1 o x) t2) as [h2 [y| | |]] eqn:E2; try discriminate. injection B as <- <-.
    eapply keeps_trans; [exact (IH _ _ _ _ E1)|]. eapply keeps_trans; [|eapply keeps_trans; [exact (IH _ _ _ _ E2)|]]; now apply keeps_same.
Qed.

(** * The invariant *)
Definition links (h : heap) (t : gotype) (x : tobj) : Prop :=
  match t with
  | TPtr t' => is_ptr t' = false /\ exists v, x = mkT t None (Some v) None (to_fin x) /\ ct h t' = Some v
  | TSlice t' => exists v, x = mkT t None (Some v) None (to_fin x) /\ ct h t' = Some v
  | TBytes => exists v, x = mkT t None (Some v) None (to_fin x) /\ ct h TOther = Some v
  | TMap k v => exists a b, x = mkT t (Some a) (Some b) None (to_fin x) /\ ct h k = Some a /\ ct h v = Some b
  | TStruct i => exists s, x = mkT t None None (Some s) (to_fin x) /\ cs h i = Some s
  | _ => x = mkT t None None None (to_fin x)
  end.
(** a field as parsed, or finalized too *)
Definition same_field (h : heap) (f : ofield) (p : pfield) : Prop :=
  pf_key (of_p f) = pf_key p /\ pf_val (of_p f) = pf_val p /\
  (pf_desc (of_p f) = pf_desc p \/ finalize_field (pf_key p) (pf_val p) (pf_desc p) = Some (pf_desc (of_p f))) /\
  ct h (f_T (pf_desc p)) = Some (of_T f).
Definition shape (h : heap) (i : nat) (fs : list ofield) : Prop :=
  exists l, raw_struct (D i) = POk l /\ Forall2 (same_field h) fs l.

Section Inv.
(** [allok]: only calls that succeed are considered.  [W] and [WS]: the types and struct
    types watched. *)
Variable allok : bool.
Variable W : gotype -> Prop.
Variable WS : nat -> Prop.

Record Inv (h : heap) (KT : gotype -> Prop) (KS : nat -> Prop) : Prop := {
  inv_wf : wf h;
  inv_t : forall t o, W t -> ct h t = Some o -> o < h_tn h /\ to_rt (th h o) = t /\ (KT t \/ links h t (th h o));
  inv_s : forall i s, WS i -> cs h i = Some s -> s < h_sn h /\ so_id (sh h s) = Some i /\ (KS i \/ shape h i (so_fields (sh h s)));
  inv_lt : forall o, o < h_tn h -> W (to_rt (th h o)) -> ct h (to_rt (th h o)) = Some o;
  inv_ls : forall s i, s < h_sn h -> so_id (sh h s) = Some i -> WS i -> cs h i = Some s }.
Definition ext (h h' : heap) : Prop :=
  (forall t o, W t -> ct h t = Some o -> ct h' t = Some o) /\ (forall i s, WS i -> cs h i = Some s -> cs h' i = Some s).
Lemma ext_refl : forall h, ext h h.
Proof. split; auto. Qed.
Lemma ext_trans : forall a b c, ext a b -> ext b c -> ext a c.
Proof. intros a b c [] []. split; auto. Qed.

Hypothesis HPtr : forall t, W (TPtr t) -> W t.
Hypothesis HPtr' : forall t, allok = false -> W (TPtr t) -> is_ptr t = false.
Hypothesis HSlice : forall t, W (TSlice t) -> W t.
Hypothesis HMap : forall k v, W (TMap k v) -> W k /\ W v.
Hypothesis HStruct : forall i, W (TStruct i) -> WS i.
Hypothesis HOther : W TOther.
Hypothesis HSteps : forall i, WS i -> Forall (fun s => match s with SField _ _ g => W (gf_type g) | _ => True end) (steps (D i)).
Hypothesis HRaw : forall i l p, WS i -> raw_struct (D i) = POk l -> In p l -> W (f_T (pf_desc p)).
Hypothesis HOk : forall i, allok = false -> WS i -> exists l, raw_struct (D i) = POk l.

Lemma links_ext : forall h h' t x, ext h h' -> W t -> links h t x -> links h' t x.
Proof.
  intros h h' t x [E1 E2] HW L. destruct t as [kd| | |i|t|t|t1 t2|alts|]; cbn in *; try exact L.
  - destruct L as (v & -> & C). exists v. auto.
  - destruct L as (s & -> & C). exists s. auto.
  - destruct L as (P & v & -> & C). split; [exact P|]. exists v. auto.
  - destruct L as (v & -> & C). exists v. auto.
  - destruct L as (a & b & -> & C1 & C2). apply HMap in HW as []. exists a, b. auto.
Qed.
Lemma shape_ext : forall h h' i fs, ext h h' -> WS i -> shape h i fs -> shape h' i fs.
Proof.
  intros h h' i fs [E1 E2] HW (l & R & F). exists l. split; [exact R|].
  assert (A : forall p, In p l -> W (f_T (pf_desc p))) by (intros p; now apply (HRaw i l)). clear R.
  induction F as [|f p fs l (A1 & A2 & A3 & A4) F IH]; constructor.
  - repeat split; auto. apply E1; [apply A; now left|exact A4].
  - apply IH. intros q Q. apply A. now right.
Qed.

(** ** Updates *)
Lemma Inv_weak : forall h KT KS (KT' : gotype -> Prop) (KS' : nat -> Prop), Inv h KT KS -> (forall t, KT t -> KT' t) -> (forall i, KS i -> KS' i) -> Inv h KT' KS'.
Proof.
  intros h KT KS KT' KS' [I1 I2 I3 I4 I5] A B. constructor; auto.
  - intros t o Wt E. destruct (I2 t o Wt E) as (? & ? & []); auto.
  - intros i s Wi E. destruct (I3 i s Wi E) as (? & ? & []); auto.
Qed.
Definition also {A} (x : A) (P : A -> Prop) : A -> Prop := fun y => y = x \/ P y.

Lemma Inv_new_type : forall h KT KS t, Inv h KT KS -> ct h t = None ->
  Inv (fst (new_type h t)) (also t KT) KS /\ ext h (fst (new_type h t)).
Proof.
  intros h KT KS t IV C.
  assert (X : ext h (fst (new_type h t))) by (destruct (keeps_new_type h t C); split; auto).
  split; [|exact X]. pose proof (frame_new_type h t (inv_wf _ _ _ IV)) as F. constructor.
  - exact (frame_wf _ _ F).
  - intros x o Wx E. cbn in E. destruct (gotype_eqb_spec x t) as [->|Ne].
    + injection E as <-. cbn. rewrite Nat.eqb_refl. repeat split; [lia|]. left. now left.
    + destruct (inv_t _ _ _ IV x o Wx E) as (Lo & R & K). rewrite (fr_t _ _ F) by exact Lo. repeat split; [cbn; lia|exact R|].
      destruct K as [K|K]; [left; now right|right]. now apply (links_ext h).
  - intros i s Wi E. cbn in E. destruct (inv_s _ _ _ IV i s Wi E) as (Ls & R & K). cbn [fst]. repeat split; auto.
    destruct K as [K|K]; [left; exact K|right]. now apply (shape_ext h).
  - intros o L Wo. cbn in L, Wo |- *. destruct (Nat.eqb_spec o (h_tn h)) as [Eo|Ne]; cbn in Wo |- *; [subst o; now rewrite gotype_eqb_refl|].
    pose proof (inv_lt _ _ _ IV o ltac:(lia) Wo) as E. destruct (gotype_eqb_spec (to_rt (th h o)) t) as [Et|_]; [|exact E]. rewrite Et in E. congruence.
  - exact (inv_ls _ _ _ IV).
Qed.
Lemma Inv_new_struct : forall h KT KS i, Inv h KT KS -> cs h i = None ->
  Inv (fst (new_struct h i)) KT (also i KS) /\ ext h (fst (new_struct h i)).
Proof.
  intros h KT KS i IV C.
  assert (X : ext h (fst (new_struct h i))) by (destruct (keeps_new_struct h i C); split; auto).
  split; [|exact X]. pose proof (frame_new_struct h i (inv_wf _ _ _ IV)) as F. constructor.
  - exact (frame_wf _ _ F).
  - intros x o Wx E. cbn in E. destruct (inv_t _ _ _ IV x o Wx E) as (Lo & R & K). cbn [fst]. repeat split; auto.
    destruct K as [K|K]; [left; exact K|right]. now apply (links_ext h).
  - intros j s Wj E. cbn in E. destruct (Nat.eqb_spec j i) as [->|Ne].
    + injection E as <-. cbn. rewrite Nat.eqb_refl. repeat split; [lia|]. left. now left.
    + destruct (inv_s _ _ _ IV j s Wj E) as (Lo & R & K). rewrite (fr_s _ _ F) by exact Lo. repeat split; [cbn; lia|exact R|].
      destruct K as [K|K]; [left; now right|right]. now apply (shape_ext h).
  - exact (inv_lt _ _ _ IV).
  - intros s j A Es Wj. cbn in A, Es |- *. destruct (Nat.eqb_spec s (h_sn h)) as [->|Ne]; cbn in Es |- *.
    + injection Es as ->. now rewrite Nat.eqb_refl.
    + pose proof (inv_ls _ _ _ IV s j ltac:(lia) Es Wj) as E. destruct (Nat.eqb_spec j i) as [->|_]; [congruence|exact E].
Qed.
(** writing an object that is being built *)
Lemma Inv_set_type : forall h KT KS t o x, Inv h KT KS -> o < h_tn h -> to_rt (th h o) = t -> to_rt x = t -> to_fin x = to_fin (th h o) ->
  KT t -> Inv (set_type h o x) KT KS.
Proof.
  intros h KT KS t o x IV Lo R Rx Fx K. constructor.
  - destruct (inv_wf _ _ _ IV). constructor; cbn; auto; intros a L; destruct (Nat.eqb_spec a o); subst; auto; try lia.
  - intros u a Wu E. cbn in E. destruct (inv_t _ _ _ IV u a Wu E) as (La & Ra & Ka). cbn. split; [exact La|].
    destruct (Nat.eqb_spec a o) as [->|Ne]; [|auto]. rewrite Rx. split; [congruence|]. left. congruence.
  - intros i s Wi E. exact (inv_s _ _ _ IV i s Wi E).
  - intros a A Wa. cbn in A, Wa |- *. destruct (Nat.eqb_spec a o) as [Ea|Ne]; [subst a|].
    + rewrite Rx in *. subst t. apply (inv_lt _ _ _ IV o A Wa).
    + exact (inv_lt _ _ _ IV a A Wa).
  - exact (inv_ls _ _ _ IV).
Qed.
Lemma Inv_set_struct : forall h KT KS i o x, Inv h KT KS -> o < h_sn h -> so_id (sh h o) = Some i -> so_id x = Some i -> so_fin x = so_fin (sh h o) ->
  KS i -> Inv (set_struct h o x) KT KS.
Proof.
  intros h KT KS i o x IV Lo R Rx Fx K. constructor.
  - destruct (inv_wf _ _ _ IV). constructor; cbn; auto; intros a L; destruct (Nat.eqb_spec a o); subst; auto; try lia.
  - intros u a Wu E. exact (inv_t _ _ _ IV u a Wu E).
  - intros j s Wj E. cbn in E. destruct (inv_s _ _ _ IV j s Wj E) as (La & Ra & Ka). cbn. split; [exact La|].
    destruct (Nat.eqb_spec s o) as [->|Ne]; [|auto]. rewrite Rx. split; [congruence|]. left. congruence.
  - exact (inv_lt _ _ _ IV).
  - intros s j A Es Wj. cbn in A, Es |- *. destruct (Nat.eqb_spec s o) as [Ea|Ne]; [subst s|].
    + apply (inv_ls _ _ _ IV o j); [exact A|congruence|exact Wj].
    + now apply (inv_ls _ _ _ IV).
Qed.
(** the object is built *)
Lemma Inv_close_type : forall h KT KS t, Inv h (also t KT) KS -> (forall o, W t -> ct h t = Some o -> links h t (th h o)) -> Inv h KT KS.
Proof.
  intros h KT KS t IV Lk. destruct IV as [I1 I2 I3 I4 I5]. constructor; auto.
  intros x o Wx E. destruct (I2 x o Wx E) as (A & B & [[->|K]|K]); repeat split; auto.
Qed.
Lemma Inv_close_struct : forall h KT KS i, Inv h KT (also i KS) -> (forall s, WS i -> cs h i = Some s -> shape h i (so_fields (sh h s))) -> Inv h KT KS.
Proof.
  intros h KT KS t IV Lk. destruct IV as [I1 I2 I3 I4 I5]. constructor; auto.
  intros x o Wx E. destruct (I3 x o Wx E) as (A & B & [[->|K]|K]); repeat split; auto.
Qed.
(** deleting what is not watched *)
Lemma Inv_put_type : forall h KT KS t o, Inv h KT KS -> ~ W t -> Inv (put_type h t o) KT KS /\ ext h (put_type h t o).
Proof.
  intros h KT KS t o IV N.
  assert (X : ext h (put_type h t o)).
  { split; cbn; [|auto]. intros x a Wx E. destruct (gotype_eqb_spec x t) as [->|_]; [contradiction|exact E]. }
  split; [|exact X]. constructor.
  - destruct (inv_wf _ _ _ IV). constructor; cbn; auto.
  - intros x a Wx E. cbn in E. destruct (gotype_eqb_spec x t) as [->|_]; [contradiction|].
    destruct (inv_t _ _ _ IV x a Wx E) as (A & B & K). cbn [put_type]. repeat split; auto. destruct K as [K|K]; [now left|right]. now apply (links_ext h).
  - intros i s Wi E. destruct (inv_s _ _ _ IV i s Wi E) as (A & B & K). repeat split; auto. destruct K as [K|K]; [now left|right]. now apply (shape_ext h).
  - intros a A Wa. cbn in A, Wa |- *. destruct (gotype_eqb_spec (to_rt (th h a)) t) as [Et|_]; [congruence|]. exact (inv_lt _ _ _ IV a A Wa).
  - exact (inv_ls _ _ _ IV).
Qed.
Lemma Inv_put_struct : forall h KT KS t o, Inv h KT KS -> ~ WS t -> Inv (put_struct h t o) KT KS /\ ext h (put_struct h t o).
Proof.
  intros h KT KS t o IV N.
  assert (X : ext h (put_struct h t o)).
  { split; cbn; [auto|]. intros x a Wx E. destruct (Nat.eqb_spec x t) as [->|_]; [contradiction|exact E]. }
  split; [|exact X]. constructor.
  - destruct (inv_wf _ _ _ IV). constructor; cbn; auto.
  - intros x a Wx E. destruct (inv_t _ _ _ IV x a Wx E) as (A & B & K). cbn [put_type]. repeat split; auto. destruct K as [K|K]; [now left|right]. now apply (links_ext h).
  - intros i s Wi E. cbn in E. destruct (Nat.eqb_spec i t) as [->|_]; [contradiction|].
    destruct (inv_s _ _ _ IV i s Wi E) as (A & B & K). repeat split; auto.
  - exact (inv_lt _ _ _ IV).
  - intros s j A Es Wj. cbn in A, Es |- *. destruct (Nat.eqb_spec j t) as [->|_]; [contradiction|]. exact (inv_ls _ _ _ IV s j A Es Wj).
Qed.

(** ** The calls *)
Definition PT (pt : heap -> gotype -> heap * res nat) : Prop :=
  forall h KT KS t h' r, Inv h KT KS -> pt h t = (h', r) -> r <> RFuel -> (allok = true -> exists o, r = ROk o) ->
    Inv h' KT KS /\ ext h h' /\ (W t -> exists o, r = ROk o /\ ct h' t = Some o).

Lemma run_steps_inv : forall pt, PT pt -> forall l h KT KS h' r, Inv h KT KS -> run_steps pt h l = (h', r) -> r <> RFuel ->
  (allok = true -> exists fs, r = ROk fs) ->
  Inv h' KT KS /\ ext h h' /\
  (Forall (fun s => match s with SField _ _ g => W (gf_type g) | _ => True end) l ->
    (forall fs, r = ROk fs -> raw l = POk (map of_p fs) /\ Forall (fun f => ct h' (f_T (pf_desc (of_p f))) = Some (of_T f)) fs) /\
    (forall x, raw l = POk x -> exists fs, r = ROk fs)).
Proof.
  intros pt P. induction l as [|st l IH]; intros h KT KS h' r IV E NF OK; cbn [run_steps] in E.
  { injection E as <- <-. split; [exact IV|]. split; [apply ext_refl|]. intros _. split; [intros fs [= <-]; split; [reflexivity|constructor]|intros x _; eauto]. }
  destruct st as [slot w g| |].
  2,3: injection E as <- <-; split; [exact IV|]; split; [apply ext_refl|]; intros _; split; [intros fs; discriminate|intros x; discriminate].
  cbn [raw]. unfold raw_field. destruct (parseStructTag (gf_tag g)) as [p|].
  2: injection E as <- <-; split; [exact IV|]; split; [apply ext_refl|]; intros _; split; [intros fs; discriminate|intros x; discriminate].
  destruct (pt h (gf_type g)) as [h1 r1] eqn:E1.
  assert (N1 : r1 <> RFuel) by (intros ->; cbn in E; injection E as <- <-; now apply NF).
  assert (O1 : allok = true -> exists o, r1 = ROk o).
  { intros A. destruct (OK A) as (fs & ->). destruct r1; eauto; discriminate. }
  destruct (P _ _ _ _ _ _ IV E1 N1 O1) as (IV1 & X1 & V1).
  destruct r1 as [o| | |]; cbn [rbind] in E; [|..].
  2,3,4: injection E as <- <-; split; [exact IV1|]; split; [exact X1|]; intros F; apply Forall_inv in F; destruct (V1 F) as (o & Bad & _); discriminate.
  destruct (run_steps pt h1 l) as [h2 r2] eqn:E2.
  assert (N2 : r2 <> RFuel) by (intros ->; cbn in E; injection E as <- <-; now apply NF).
  assert (O2 : allok = true -> exists fs, r2 = ROk fs).
  { intros A. destruct (OK A) as (fs & ->). destruct r2; eauto; discriminate. }
  destruct (IH _ _ _ _ _ IV1 E2 N2 O2) as (IV2 & X2 & V2). pose proof (ext_trans _ _ _ X1 X2) as X.
  assert (h2 = h') as -> by (destruct r2; cbn in E; now injection E). split; [exact IV2|]. split; [exact X|]. intros F.
  inversion F as [|? ? Wg Fl]; subst. destruct (V2 Fl) as (Y1 & Y2). destruct (V1 Wg) as (o' & [= <-] & C). split.
  - intros fs ->. destruct r2 as [fs2| | |]; cbn in E; try discriminate. injection E as <-. destruct (Y1 fs2 eq_refl) as (-> & FF).
    split; [reflexivity|]. constructor; [|exact FF]. cbn. now apply X2.
  - intros x R. destruct (raw l) as [x2| |]; try discriminate. destruct (Y2 x2 eq_refl) as (fs2 & ->). cbn in E. injection E as <-. eauto.
Qed.

Lemma sort_map : forall fs, map of_p (sort_ofields fs) = sort_pfields (map of_p fs).
Proof.
  assert (IN : forall f l, map of_p (insert_ofield f l) = insert_pfield (of_p f) (map of_p l)).
  { intros f. induction l as [|g l IH]; [reflexivity|]. cbn. unfold of_id. destruct (_ <? _)%Z; cbn; [now rewrite IH|reflexivity]. }
  induction fs as [|f fs IH]; [reflexivity|]. cbn. now rewrite IN, IH.
Qed.
Lemma sort_Forall : forall (P : ofield -> Prop) fs, Forall P fs -> Forall P (sort_ofields fs).
Proof.
  intros P. assert (IN : forall f l, P f -> Forall P l -> Forall P (insert_ofield f l)).
  { intros f. induction l as [|g l IH]; intros Pf F; cbn; [auto|]. inversion F; subst. destruct (_ <? _)%Z; auto. }
  induction 1; cbn; auto.
Qed.

Lemma parseStruct_inv : forall pt, PT pt -> (forall h t h' r, pt h t = (h', r) -> wf h -> frame h h') ->
  forall h KT KS i h' r, Inv h KT KS -> parseStruct D pt h i = (h', r) -> r <> RFuel -> (allok = true -> exists s, r = ROk s) ->
    Inv h' KT KS /\ ext h h' /\ (WS i -> exists s, r = ROk s /\ cs h' i = Some s).
Proof.
  intros pt P PF h KT KS i h' r IV E NF OK. unfold parseStruct in E. destruct (cs h i) as [s|] eqn:C.
  { injection E as <- <-. split; [exact IV|]. split; [apply ext_refl|]. eauto. }
  destruct (Inv_new_struct _ _ _ _ IV C) as (IV0 & X0). pose proof (frame_new_struct h i (inv_wf _ _ _ IV)) as F0.
  destruct (new_struct h i) as [h0 s] eqn:NS. cbn [fst] in *.
  assert (s < h_sn h0 /\ sh h0 s = mkSO (Some i) [] false /\ cs h0 i = Some s) as (Ls & Es & Cs).
  { injection NS as <- <-. cbn. rewrite !Nat.eqb_refl. repeat split. lia. }
  destruct (run_steps pt h0 (steps (D i))) as [h1 r1] eqn:R1.
  assert (N1 : r1 <> RFuel) by (intros ->; injection E as <- <-; now apply NF).
  assert (O1 : allok = true -> exists fs, r1 = ROk fs).
  { intros A. destruct (OK A) as (y & ->). destruct r1; eauto; discriminate. }
  destruct (run_steps_inv pt P _ _ _ _ _ _ IV0 R1 N1 O1) as (IV1 & X1 & V1).
  pose proof (run_steps_frame pt PF _ _ _ _ R1 (inv_wf _ _ _ IV0)) as F1.
  assert (NOT : forall x, r1 = x -> (forall fs, x <> ROk fs) -> ~ WS i).
  { intros x -> Hx Wi. destruct allok eqn:A; [destruct (O1 eq_refl) as (fs & ->); now apply (Hx fs)|].
    destruct (HOk i eq_refl Wi) as (l & R). unfold raw_struct in R. destruct (raw (steps (D i))) as [y| |] eqn:Ry; try discriminate.
    destruct (V1 (HSteps i Wi)) as (_ & V1'). destruct (V1' y eq_refl) as (fs & ->). now apply (Hx fs). }
  assert (CLOSE : ~ WS i -> forall h2 KT KS, Inv h2 KT (also i KS) -> Inv h2 KT KS).
  { intros Nw h2 KT' KS' IV2. apply (Inv_close_struct h2 KT' KS' i IV2). intros s' Wi. contradiction. }
  destruct r1 as [fs| | |].
  2: { specialize (NOT _ eq_refl ltac:(discriminate)). injection E as <- <-. destruct (Inv_put_struct h1 KT KS i None (CLOSE NOT _ _ _ IV1) NOT) as (IV2 & X2).
       split; [exact IV2|]. split; [|contradiction]. exact (ext_trans _ _ _ X0 (ext_trans _ _ _ X1 X2)). }
  2: { specialize (NOT _ eq_refl ltac:(discriminate)). injection E as <- <-. 
       split; [exact (CLOSE NOT _ _ _ IV1)|]. split; [|contradiction]. exact (ext_trans _ _ _ X0 X1). }
  2: { now exfalso; apply N1. }
  clear NOT. assert (Es1 : sh h1 s = mkSO (Some i) [] false) by (rewrite (fr_s _ _ F1) by exact Ls; exact Es).
  set (l := sort_ofields fs) in *. set (h2 := set_fields h1 s l) in *.
  assert (IV2 : Inv h2 KT (also i KS)).
  { apply (Inv_set_struct h1 KT (also i KS) i); auto; [pose proof (fr_sn _ _ F1); lia| | |now left]; cbn; now rewrite ?Es1. }
  assert (X2 : ext h h2) by (eapply ext_trans; [exact X0|exact X1]).
  assert (RES : match map of_p l with
                | [] => (h2, ROk s)
                | f :: _ => if (f_id (pf_desc f) <? 0)%Z then (h2, RPanic)
                            else match build_tables (map pf_desc (map of_p l)) with Some _ => (h2, ROk s) | None => (put_struct h2 i None, RErr) end
                end = (h', r)).
  { rewrite map_map. destruct l; exact E. }
  clear E. assert (RAW : WS i -> raw_struct (D i) = tables (map of_p l)).
  { intros Wi. destruct (V1 (HSteps i Wi)) as (V1' & _). destruct (V1' fs eq_refl) as (R & _). unfold raw_struct. rewrite R. cbn [pbind]. unfold l. now rewrite sort_map. }
  assert (NOT : (forall s, r <> ROk s) -> tables (map of_p l) <> POk (map of_p l) -> ~ WS i).
  { intros Nr T Wi. destruct allok eqn:A; [destruct (OK eq_refl) as (y & ->); now apply (Nr y)|].
    destruct (HOk i eq_refl Wi) as (x & R). rewrite RAW in R by exact Wi. apply T.
    rewrite R. f_equal. unfold tables in R. destruct (map of_p l) as [|f m]; [now injection R|].
    destruct (f_id (pf_desc f) <? 0)%Z; [discriminate|]. destruct (build_tables _); [now injection R|discriminate]. }
  assert (GOOD : tables (map of_p l) = POk (map of_p l) -> h' = h2 -> r = ROk s ->
    Inv h' KT KS /\ ext h h' /\ (WS i -> exists s0, r = ROk s0 /\ cs h' i = Some s0)).
  { intros T -> ->. assert (CC : WS i -> cs h2 i = Some s) by (intros Wi; now apply X1).
    split; [|split; [exact X2|intros Wi; eauto]].
    apply (Inv_close_struct h2 KT KS i IV2). intros s' Wi C'. rewrite CC in C' by exact Wi. injection C' as <-.
    exists (map of_p l). rewrite RAW, T by exact Wi. split; [reflexivity|]. destruct (V1 (HSteps i Wi)) as (V1' & _). destruct (V1' fs eq_refl) as (_ & FF).
    apply sort_Forall in FF. fold l in FF. cbn. rewrite Nat.eqb_refl. cbn. clear - FF. induction FF as [|f m Hf FF IH]; constructor; auto.
    repeat split; auto. }
  unfold tables in NOT, GOOD. destruct (map of_p l) as [|f m] eqn:ML; [injection RES as <- <-; now apply GOOD|].
  destruct (f_id (pf_desc f) <? 0)%Z.
  { injection RES as <- <-. assert (Nw : ~ WS i) by (apply NOT; intros; discriminate).
    split; [exact (CLOSE Nw _ _ _ IV2)|]. split; [exact X2|contradiction]. }
  destruct (build_tables _); [injection RES as <- <-; now apply GOOD|].
  injection RES as <- <-. assert (Nw : ~ WS i) by (apply NOT; intros; discriminate).
  destruct (Inv_put_struct h2 KT KS i None (CLOSE Nw _ _ _ IV2) Nw) as (IV3 & X3).
  split; [exact IV3|]. split; [exact (ext_trans _ _ _ X2 X3)|contradiction].
Qed.

Lemma parseType_inv : forall fuel, PT (parseType D fuel).
Proof.
  induction fuel as [|k IH]; intros h KT KS t h' r IV E NF OK; cbn [parseType] in E; [injection E as <- <-; now exfalso; apply NF|].
  destruct (ct h t) as [o|] eqn:C.
  { injection E as <- <-. split; [exact IV|]. split; [apply ext_refl|]. eauto. }
  destruct (Inv_new_type _ _ _ _ IV C) as (IV0 & X0). pose proof (frame_new_type h t (inv_wf _ _ _ IV)) as F0.
  destruct (new_type h t) as [h0 o] eqn:NT. cbn [fst] in *.
  assert (o < h_tn h0 /\ th h0 o = mkT t None None None false /\ ct h0 t = Some o) as (Lo & Eo & Co).
  { injection NT as <- <-. cbn. rewrite Nat.eqb_refl, gotype_eqb_refl. repeat split. lia. }
  match type of E with (match ?b with _ => _ end) = _ => set (body := b) in E end.
  destruct body as [h1 r1] eqn:B.
  assert (N1 : r1 <> RFuel) by (intros ->; injection E as <- <-; now apply NF).
  assert (O1 : allok = true -> exists o, r1 = ROk o).
  { intros A. destruct (OK A) as (y & ->). destruct r1; eauto; discriminate. }
  assert (BODY : Inv h1 (also t KT) KS /\ ext h0 h1 /\ (W t -> r1 = ROk o /\ links h1 t (th h1 o))).
  { unfold body in B. clear body E NF OK.
    assert (SETX : forall a x, Inv a (also t KT) KS -> frame h0 a -> to_rt x = t -> to_fin x = to_fin (th a o) -> Inv (set_type a o x) (also t KT) KS).
    { intros a x IVa Fa Tx Fx. apply (Inv_set_type a (also t KT) KS t); auto; [pose proof (fr_tn _ _ Fa); lia| |now left].
      rewrite (fr_t _ _ Fa) by exact Lo. now rewrite Eo. }
    assert (AT : forall a, frame h0 a -> th a o = mkT t None None None false).
    { intros a Fa. now rewrite (fr_t _ _ Fa) by exact Lo. }
    destruct t as [kd| | |i|t'|t'|t1 t2|alts|].
    1,2,8,9: injection B as <- <-; split; [exact IV0|]; split; [apply ext_refl|]; intros _; split; [reflexivity|]; rewrite Eo; reflexivity.
    - destruct (parseType D k h0 TOther) as [a ra] eqn:E1. pose proof (parseType_frame _ _ _ _ _ E1 (inv_wf _ _ _ IV0)) as Fa.
      assert (Na : ra <> RFuel) by (intros ->; cbn in B; injection B as <- <-; now apply N1).
      assert (Oa : allok = true -> exists o, ra = ROk o).
      { intros A. destruct (O1 A) as (y & ->). destruct ra; eauto; discriminate. }
      destruct (IH _ _ _ _ _ _ IV0 E1 Na Oa) as (IVa & Xa & Va).
      destruct (Va HOther) as (v & -> & Cv). cbn [rbind] in B. injection B as <- <-.
      split; [apply SETX; auto; cbn; now rewrite AT|]. split; [exact Xa|]. intros _. split; [reflexivity|].
      cbn. rewrite Nat.eqb_refl. rewrite AT by exact Fa. cbn. exists v. auto.
    - destruct (parseStruct D (parseType D k) h0 i) as [a ra] eqn:E1.
      pose proof (parseStruct_frame _ (parseType_frame k) _ _ _ _ E1 (inv_wf _ _ _ IV0)) as Fa.
      assert (Na : ra <> RFuel) by (intros ->; cbn in B; injection B as <- <-; now apply N1).
      assert (Oa : allok = true -> exists o, ra = ROk o).
      { intros A. destruct (O1 A) as (y & ->). destruct ra; eauto; discriminate. }
      destruct (parseStruct_inv _ IH (parseType_frame k) _ _ _ _ _ _ IV0 E1 Na Oa) as (IVa & Xa & Va).
      destruct ra as [s| | |]; cbn [rbind] in B; injection B as <- <-.
      2,3,4: split; [exact IVa|]; split; [exact Xa|]; intros Wt; destruct (Va (HStruct _ Wt)) as (y & Bad & _); discriminate.
      split; [apply SETX; auto; cbn; now rewrite AT|]. split; [exact Xa|]. intros Wt. split; [reflexivity|].
      cbn. rewrite Nat.eqb_refl. rewrite AT by exact Fa. cbn. destruct (Va (HStruct _ Wt)) as (y & [= <-] & Cy). exists s. auto.
    - destruct (parseType D k h0 t') as [a ra] eqn:E1. pose proof (parseType_frame _ _ _ _ _ E1 (inv_wf _ _ _ IV0)) as Fa.
      assert (Na : ra <> RFuel) by (intros ->; cbn in B; injection B as <- <-; now apply N1).
      assert (Oa : allok = true -> exists o, ra = ROk o).
      { intros A. destruct (O1 A) as (y & ->). destruct ra; eauto; discriminate. }
      destruct (IH _ _ _ _ _ _ IV0 E1 Na Oa) as (IVa & Xa & Va).
      destruct ra as [v| | |]; cbn [rbind] in B; injection B as <- <-.
      2,3,4: split; [exact IVa|]; split; [exact Xa|]; intros Wt; destruct (Va (HPtr _ Wt)) as (y & Bad & _); discriminate.
      split; [apply SETX; auto; cbn; now rewrite AT|]. split; [exact Xa|]. intros Wt.
      assert (NP : is_ptr t' = false).
      { destruct (is_ptr t') eqn:Ep; [|reflexivity]. destruct allok eqn:A; [destruct (O1 eq_refl); discriminate|]. rewrite <- Ep. now apply HPtr'. }
      rewrite NP. split; [reflexivity|]. cbn. rewrite Nat.eqb_refl. rewrite AT by exact Fa. cbn. split; [exact NP|].
      destruct (Va (HPtr _ Wt)) as (y & [= <-] & Cy). exists v. auto.
    - destruct (parseType D k h0 t') as [a ra] eqn:E1. pose proof (parseType_frame _ _ _ _ _ E1 (inv_wf _ _ _ IV0)) as Fa.
      assert (Na : ra <> RFuel) by (intros ->; cbn in B; injection B as <- <-; now apply N1).
      assert (Oa : allok = true -> exists o, ra = ROk o).
      { intros A. destruct (O1 A) as (y & ->). destruct ra; eauto; discriminate. }
      destruct (IH _ _ _ _ _ _ IV0 E1 Na Oa) as (IVa & Xa & Va).
      destruct ra as [v| | |]; cbn [rbind] in B; injection B as <- <-.
      2,3,4: split; [exact IVa|]; split; [exact Xa|]; intros Wt; destruct (Va (HSlice _ Wt)) as (y & Bad & _); discriminate.
      split; [apply SETX; auto; cbn; now rewrite AT|]. split; [exact Xa|]. intros Wt.
      split; [reflexivity|]. cbn. rewrite Nat.eqb_refl. rewrite AT by exact Fa. cbn.
      destruct (Va (HSlice _ Wt)) as (y & [= <-] & Cy). exists v. auto.
    - destruct (parseType D k h0 t1) as [a ra] eqn:E1. pose proof (parseType_frame _ _ _ _ _ E1 (inv_wf _ _ _ IV0)) as Fa.
      assert (Na : ra <> RFuel) by (intros ->; cbn in B; injection B as <- <-; now apply N1).
      assert (Oa : allok = true -> exists o, ra = ROk o).
      { intros A. destruct (O1 A) as (y & ->). destruct ra; eauto; discriminate. }
      destruct (IH _ _ _ _ _ _ IV0 E1 Na Oa) as (IVa & Xa & Va).
      destruct ra as [x| | |]; cbn [rbind] in B.
      2,3,4: injection B as <- <-; split; [exact IVa|]; split; [exact Xa|]; intros Wt; destruct (Va (proj1 (HMap _ _ Wt))) as (y & Bad & _); discriminate.
      assert (IVb : Inv (set_K a o x) (also (TMap t1 t2) KT) KS) by (apply SETX; auto; cbn; now rewrite AT).
      destruct (parseType D k (set_K a o x) t2) as [c rc] eqn:E2. pose proof (parseType_frame _ _ _ _ _ E2 (inv_wf _ _ _ IVb)) as Fc.
      assert (Nc : rc <> RFuel) by (intros ->; cbn in B; injection B as <- <-; now apply N1).
      assert (Oc : allok = true -> exists o, rc = ROk o).
      { intros A. destruct (O1 A) as (y & ->). destruct rc; eauto; discriminate. }
      destruct (IH _ _ _ _ _ _ IVb E2 Nc Oc) as (IVc & Xc & Vc).
      assert (Lc : o < h_tn (set_K a o x)) by (pose proof (fr_tn _ _ Fa); cbn; lia).
      assert (Ec : th c o = mkT (TMap t1 t2) (Some x) None None false).
      { rewrite (fr_t _ _ Fc) by exact Lc. cbn. rewrite Nat.eqb_refl. now rewrite AT by exact Fa. }
      assert (X : ext h0 c) by (eapply ext_trans; [exact Xa|exact Xc]).
      destruct rc as [v| | |]; cbn [rbind] in B; injection B as <- <-.
      2,3,4: split; [exact IVc|]; split; [exact X|]; intros Wt; destruct (Vc (proj2 (HMap _ _ Wt))) as (y & Bad & _); discriminate.
      split; [|split; [exact X|]].
      + apply (Inv_set_type c (also (TMap t1 t2) KT) KS (TMap t1 t2)); auto; [pose proof (fr_tn _ _ Fc); lia| | |now left]; cbn; now rewrite Ec.
      + intros Wt. split; [reflexivity|]. cbn. rewrite Nat.eqb_refl, Ec. cbn. destruct (HMap _ _ Wt) as (W1 & W2).
        destruct (Va W1) as (y & [= <-] & Cy). destruct (Vc W2) as (z & [= <-] & Cz). exists x, v. split; [reflexivity|]. split; [|exact Cz].
        now apply Xc. }
  clear B body. destruct BODY as (IV1 & X1 & V1). pose proof (ext_trans _ _ _ X0 X1) as X.
  destruct r1 as [o'| | |]; injection E as <- <-.
  - assert (CC : W t -> ct h1 t = Some o) by (intros Wt; now apply X1).
    split; [|split; [exact X|]].
    + apply (Inv_close_type h1 KT KS t IV1). intros a Wt Ca. rewrite CC in Ca by exact Wt. injection Ca as <-. now apply V1.
    + intros Wt. destruct (V1 Wt) as ([= ->] & _). eauto.
  - assert (Nw : ~ W t) by (intros Wt; destruct (V1 Wt); discriminate).
    assert (IV2 : Inv h1 KT KS) by (apply (Inv_close_type h1 KT KS t IV1); intros; contradiction).
    destruct (Inv_put_type h1 KT KS t None IV2 Nw) as (IV3 & X3). split; [exact IV3|]. split; [exact (ext_trans _ _ _ X X3)|contradiction].
  - assert (Nw : ~ W t) by (intros Wt; destruct (V1 Wt); discriminate).
    split; [apply (Inv_close_type h1 KT KS t IV1); intros; contradiction|]. split; [exact X|contradiction].
  - now exfalso; apply NF.
Qed.
End Inv.
End D.
