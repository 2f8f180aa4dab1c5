(** Consequences of the round trip. *)
From Verif Require Import Base Wire WireSpec Value Desc MsgSpec ValFacts Writes Encoder EncProofs EncFacts Decoder DecSpec DecProofs DecFacts RoundSpec RoundTrip.
From Coq Require Import Lia ZifyBool ZifyNat ZifyN Sorting.Permutation.
Open Scope N_scope.

Section RF.
Variable E : env.
Hypothesis WF : wf_env E.

(** ** More levels do not change the message *)
Definition le_rec (r r' : nat -> option val -> option pval) : Prop := forall id p m, r id p = Some m -> r' id p = Some m.
Lemma value_mono : forall r r' tag t v p, le_rec r r' -> value_den r tag t v = Some p -> value_den r' tag t v = Some p.
Proof.
  intros r r' tag t v p H D. destruct t as [| | | |[]| | | |], v; cbn [value_den] in *; try assumption; now apply H.
Qed.
Lemma omap_mono : forall {A B} (f g : A -> option B) l r, (forall a b, f a = Some b -> g a = Some b) -> omap f l = Some r -> omap g l = Some r.
Proof.
  intros A B f g l r H. revert r. induction l as [|a l IH]; intros r D; [assumption|].
  apply omap_cons_inv in D as (b & rb & D1 & D2 & ->). cbn [omap]. now rewrite (H _ _ D1), (IH _ D2).
Qed.
Lemma data_mono : forall r r' rm rm' f v rs, le_rec r r' -> le_rec rm rm' -> data_den E r rm f v = Some rs -> data_den E r' rm' f v = Some rs.
Proof.
  intros r r' rm rm' f v rs H HM D. unfold data_den in *.
  assert (SGL : forall t, (if omitted E t v then Some [] else option_map (fun p => [(field_num f, p)]) (value_den r (f_tag f) t v)) = Some rs ->
    (if omitted E t v then Some [] else option_map (fun p => [(field_num f, p)]) (value_den r' (f_tag f) t v)) = Some rs).
  { intros t X. destruct (omitted E t v); [assumption|]. destruct (value_den r (f_tag f) t v) as [p|] eqn:V; [|discriminate].
    now rewrite (value_mono _ _ _ _ _ _ H V). }
  destruct (f_T f) as [k| | |id|t|t|kt vt|alts|]; try (destruct v; now apply SGL).
  - destruct v; try now apply SGL. destruct p as [x|]; [|assumption].
    destruct (value_den r (f_tag f) t x) as [p|] eqn:V; [|discriminate]. now rewrite (value_mono _ _ _ _ _ _ H V).
  - destruct v; try now apply SGL. destruct (omap (value_den r (f_tag f) t) elems) as [l|] eqn:V; [|discriminate].
    now rewrite (omap_mono _ (value_den r' (f_tag f) t) _ _ (fun a b => value_mono _ _ _ _ _ _ H) V).
  - destruct v; try now apply SGL. destruct (omap (entry_den r rm f kt vt) _) as [l|] eqn:V; [|discriminate].
    erewrite omap_mono; [exact D| |exact V]. intros [k x] p X. unfold entry_den in *. cbn [fst snd] in *.
    destruct (value_den r (f_ktag f) kt k) as [pk|] eqn:VK; [|discriminate]. destruct (value_den rm (f_vtag f) vt x) as [pv|] eqn:VV; [|discriminate].
    now rewrite (value_mono _ _ _ _ _ _ H VK), (value_mono _ _ _ _ _ _ HM VV).
Qed.
Lemma msg_mono : forall two n d d' id p m, (d <= n)%nat -> (d <= d')%nat -> msg E two d id p = Some m -> msg E false d' id p = Some m.
Proof.
  intros two. induction n as [|n IH]; intros d d' id p m Hn Hd H; destruct d as [|d]; try discriminate H; try lia. destruct d' as [|d']; [lia|].
  cbn [msg] in *. destruct (match p with Some v => v | None => sd_zero (E id) end) as [| | | | | | |slots unk|]; try discriminate.
  destruct (fields_den _ _ _ _ _) as [fs|] eqn:F; [|discriminate]. cbn [option_map] in H. injection H as <-.
  unfold fields_den in F |- *. destruct (omap _ _) as [l|] eqn:O in F; [|discriminate]. injection F as <-.
  erewrite omap_mono; [reflexivity| |exact O]. intros f rs X. cbn beta in X |- *. destruct (nth_error slots (f_slot f)) as [slot|]; [|discriminate].
  assert (DM : forall v, data_den E (msg E two d) (if two then match d with O => fun _ _ => None | S d'' => msg E two d'' end else msg E two d) f v = Some rs ->
    data_den E (msg E false d') (msg E false d') f v = Some rs).
  { intro v. apply data_mono.
    - intros i q m' X'. apply (IH d d'); auto; lia.
    - destruct two; [destruct d as [|d]|]; intros i q m' X'; [discriminate X'| |]; eapply IH; try exact X'; lia. }
  unfold field_den in *. destruct (f_oneof f); [|now apply DM]. destruct slot as [| | | | | | | |[[w' [x|]]|]]; try assumption.
  destruct (Nat.eqb w' n0); [now apply DM|assumption].
Qed.

(** ** Levels *)
Lemma data_split : forall r rm f v, supported f = true -> wt E (f_T f) v ->
  data_den E r rm f v = match f_T f with TMap _ _ => data_den E rm rm f v | _ => data_den E r r f v end.
Proof.
  intros r rm f v S W. unfold data_den. destruct (f_T f) as [k| | |id|t|t|kt vt|alts|] eqn:T; try reflexivity.
  apply wt_map_inv in W as (m & -> & Wm). pose proof (supported_elem f S) as SE. rewrite T in SE. destruct SE as (_ & K & _).
  assert (X : forall kv, entry_den r rm f kt vt kv = entry_den rm rm f kt vt kv).
  { intros [k x]. unfold entry_den. cbn [fst snd]. destruct kt; try discriminate K; reflexivity. }
  assert (Y : forall l, omap (entry_den r rm f kt vt) l = omap (entry_den rm rm f kt vt) l).
  { induction l as [|a l IH]; [reflexivity|]. cbn [omap]. now rewrite X, IH. }
  now rewrite Y.
Qed.
Lemma msg_levels : forall n d id p, (d <= n)%nat -> wtp E id p -> msg E true d id p = None -> exists k, (d < k)%nat /\ levels E k id p.
Proof.
  induction n as [|n IH]; intros d id p Hn W H; (destruct d as [|d]; [exists 1%nat; split; [lia|constructor]|]); [lia|].
  cbn [msg] in H. pose proof (wtp_optP _ _ _ W) as WB. apply (wtp_base E _ WF) in WB. apply wt_struct_inv in WB as (slots & unk & Hv & Ws & _).
  rewrite Hv in H. apply option_map_none in H. unfold fields_den in H. apply option_map_none, omap_none in H as (f & HI & N).
  destruct (wf_fields _ _ (WF id) f HI) as (Hid & Sup & Hslot).
  assert (X : exists slot v id' p', nth_error slots (f_slot f) = Some slot /\
     match f_oneof f with None => v = slot | Some w => slot = VIface (Some (w, Some v)) end /\ wt E (f_T f) v /\
     holds_msg E f v id' p' /\ match f_T f with TMap _ _ => match d with O => None | S d'' => msg E true d'' id' p' end | _ => msg E true d id' p' end = None).
  { assert (Y : forall v, wt E (f_T f) v -> data_den E (msg E true d) match d with O => fun _ _ => None | S d'' => msg E true d'' end f v = None ->
      exists id' p', holds_msg E f v id' p' /\ match f_T f with TMap _ _ => match d with O => None | S d'' => msg E true d'' id' p' end | _ => msg E true d id' p' end = None).
    { intros v Wv Dv. rewrite data_split in Dv by assumption. destruct (f_T f) as [k| | |i|t|t|kt vt|alts|] eqn:T.
      7: { apply data_none in Dv as (id' & p' & HM & R); [|assumption|now rewrite T]. exists id', p'. split; [assumption|]. now destruct d. }
      all: apply data_none in Dv as (id' & p' & HM & R); [|assumption|now rewrite T]; eauto. }
    unfold field_den in N. destruct (f_oneof f) as [w|] eqn:O.
    - destruct Hslot as (alts & Hn' & Ha). destruct (Forall2_nth_error _ _ _ _ _ Ws Hn') as (slot & Hs & Wslot). rewrite Hs in N.
      apply wt_iface_inv in Wslot as [->|[(w' & t' & -> & Hl)|(w' & x & t' & -> & Hl & Wx)]]; [discriminate| discriminate | |reflexivity].
      destruct (Nat.eqb_spec w' w) as [->|]; [|discriminate]. rewrite Ha in Hl. injection Hl as <-.
      destruct (Y x Wx N) as (id' & p' & HM & R). exists (VIface (Some (w, Some x))), x, id', p'. auto 6.
    - destruct (Forall2_nth_error _ _ _ _ _ Ws Hslot) as (slot & Hs & Wslot). rewrite Hs in N.
      destruct (Y slot Wslot N) as (id' & p' & HM & R). exists slot, slot, id', p'. auto 6. }
  destruct X as (slot & v & id' & p' & NS & O & Wv & HM & R).
  assert (W' : wtp E id' p').
  { clear - HM Wv. destruct HM as [id' v T O'|id' x T|t0 e0 sp0 x id' q T I' EM|kt0 t0 m k x id' q T I' EM]; rewrite T in Wv.
      - exact Wv.
      - exact Wv.
      - apply wtg_slice in Wv as [Wv _]. rewrite Forall_forall in Wv. apply Wv in I'.
        destruct EM as [id' v|id' q]; [exact I'|]. destruct q; [exact I'|exact Logic.I].
      - apply wtg_map in Wv as [Wv _]. rewrite Forall_forall in Wv. apply Wv in I' as [_ I']. cbn in I'.
        destruct EM as [id' v|id' q]; [exact I'|]. destruct q; [exact I'|exact Logic.I]. }
  assert (exists k, (S d < match f_T f with TMap _ _ => 2 | _ => 1 end + k)%nat /\ levels E k id' p') as (k & LT & LV).
  { destruct (f_T f).
    7: { destruct d as [|d]; [exists 1%nat; split; [lia|constructor]|]. destruct (IH d id' p' ltac:(lia) W' R) as (q & L & LV). exists q. split; [lia|assumption]. }
    all: destruct (IH d id' p' ltac:(lia) W' R) as (q & L & LV); exists q; (split; [lia|assumption]). }
  eexists. split; [exact LT|]. eapply lv_in; eassumption.
Qed.

Lemma levels_msg : forall k id p, levels E k id p -> wtp E id p -> forall d m, msg E true d id p = Some m -> (k <= d)%nat.
Proof.
  intros k id p L. induction L as [id p|k id p slots unk f slot v id' p' Hb HI NS O HM L IH]; intros W d m H; (destruct d as [|d]; [discriminate H|]); [lia|].
  cbn [msg] in H. rewrite Hb in H. destruct (fields_den _ _ _ _ _) as [fs|] eqn:FD; [|discriminate]. clear H.
  unfold fields_den in FD. destruct (omap _ _) as [l|] eqn:OM in FD; [|discriminate]. clear FD.
  destruct (wf_fields _ _ (WF id) f HI) as (Hid & Sup & Hslot).
  pose proof (wtp_optP _ _ _ W) as WB. apply (wtp_base E _ WF) in WB. rewrite Hb in WB. apply wtg_struct in WB as (Ws & _).
  assert (Wv : wt E (f_T f) v).
  { destruct (f_oneof f) as [w|].
    - destruct Hslot as (alts & Hn' & Ha). destruct (Forall2_nth_error _ _ _ _ _ Ws Hn') as (s' & Hs & Wslot).
      rewrite Hs in NS. injection NS as ->. subst slot. cbn in Wslot. rewrite Ha in Wslot. exact Wslot.
    - subst v. destruct (Forall2_nth_error _ _ _ _ _ Ws Hslot) as (s' & Hs & Wslot). rewrite Hs in NS; injection NS as <-; exact Wslot. }
  assert (W' : wtp E id' p').
  { clear - HM Wv. destruct HM as [id' v T O'|id' x T|t0 e0 sp0 x id' q T I' EM|kt0 t0 m k x id' q T I' EM]; rewrite T in Wv.
      - exact Wv.
      - exact Wv.
      - apply wtg_slice in Wv as [Wv _]. rewrite Forall_forall in Wv. apply Wv in I'.
        destruct EM as [id' v|id' q]; [exact I'|]. destruct q; [exact I'|exact Logic.I].
      - apply wtg_map in Wv as [Wv _]. rewrite Forall_forall in Wv. apply Wv in I' as [_ I']. cbn in I'.
        destruct EM as [id' v|id' q]; [exact I'|]. destruct q; [exact I'|exact Logic.I]. }
  assert (DN : data_den E (msg E true d) match d with O => fun _ _ => None | S d'' => msg E true d'' end f v <> None).
  { intro DN. assert (X : omap (fun f => match nth_error slots (f_slot f) with
      | Some slot => field_den E (msg E true d) match d with O => fun _ _ => None | S d'' => msg E true d'' end f slot | None => None end) (sd_fields (E id)) = None).
    - apply omap_none. exists f. split; [assumption|]. rewrite NS. unfold field_den. destruct (f_oneof f) as [w|]; [|now subst]. subst slot. now rewrite Nat.eqb_refl.
    - congruence. }
  rewrite data_split in DN by assumption. pose proof (fun r => data_none E r f v Sup Wv) as N.
  destruct (f_T f).
  7: { destruct d as [|d]; [exfalso; apply DN, N; eauto|]. destruct (msg E true d id' p') as [m'|] eqn:M; [|exfalso; apply DN, N; eauto].
       specialize (IH W' d m' M). lia. }
  all: destruct (msg E true d id' p') as [m'|] eqn:M; [|exfalso; apply DN, N; eauto]; specialize (IH W' d m' M); lia.
Qed.

(** ** Round trip *)
Lemma message_wt : forall id v, message E id v -> wt E (TStruct id) v.
Proof. intros id v. apply wtg_weaken; auto. Qed.
Lemma zero_wt : forall id, wt E (TStruct id) (sd_zero (E id)).
Proof. intro id. apply (wt_zero E _ WF false (TStruct id)). Qed.

Lemma round_trip_msg : forall id v m, message E id v -> msg E true 1000 id (Some v) = Some m ->
  exists s, Marshal E (APtr id (Some v)) = Ok s /\ (blen s < 2^63 -> forall P, exists v',
    Unmarshal E P s (APtr id (Some (sd_zero (E id)))) = DOk v' tt /\ same_value E (TStruct id) v v').
Proof.
  intros id v m M DEN. pose proof (message_wt _ _ M) as W.
  pose proof (Marshal_wire E WF id (Some v) W) as MW.
  rewrite (msg_mono true 1000 1000 1000 id (Some v) m ltac:(lia) ltac:(lia) DEN) in MW. destruct MW as (s & MS & EQ).
  exists s. split; [exact MS|]. intros SM P. pose proof (EQ (or_introl SM)) as ->.
  destruct (msg_rt E WF 1000 1000 1000 id (Some v) m ltac:(lia) ltac:(lia) M DEN SM) as [_ (v' & DC & SV)].
  exists v'. split; [|exact SV]. apply Unmarshal_decodes; auto. apply zero_wt.
Qed.

(** ** Values produced by Unmarshal are messages again *)
Theorem Unmarshal_message : forall P id b v v', message E id v ->
  Unmarshal E P b (APtr id (Some v)) = DOk v' tt -> message E id v'.
Proof.
  intros P id b v v' M H. unfold Unmarshal in H. unfold message in *.
  assert (QN : forall id, unknown_ok E id []).
  { intro i. exists []. split; [split; [constructor|reflexivity]|constructor]. }
  assert (QA : forall id bs num typ raw d, unknown_ok E id bs -> is_record num typ raw d -> N.of_nat d <= 10001 ->
    (forall f, In f (sd_fields (E id)) -> field_num f <> num) -> unknown_ok E id (bs ++ raw)).
  { intros i bs num typ raw d (rs & [WR ->] & F) (t & x & p & -> & V & -> & TL & NB & PL) L NK.
    exists (rs ++ [mkW num typ t p]). split.
    - split.
      + apply Forall_app. split; [assumption|]. constructor; [|constructor]. repeat split; try assumption; cbn; try apply V; try apply NB. eauto.
      + rewrite map_app, concat_app. cbn. now rewrite app_nil_r.
    - apply Forall_app. split; [assumption|]. constructor; [|constructor]. split; [now apply known_false|]. cbn. eauto. }
  pose proof (DecodeStruct2 E (unknown_ok E) WF QN QA (S (length b)) [] P id (Z.of_nat defaultRecursionMaxDepth) b v false ltac:(lia) M) as X.
  rewrite H in X. apply X.
Qed.

(** ** The same value through other map orders *)
Lemma vsame_iface : forall v v' w o, vsame v v' -> v = VIface (Some (w, o)) -> exists o', v' = VIface (Some (w, o')).
Proof. intros v v' w o S ->. inversion S; subst; eauto. Qed.
Lemma vsame_dropped : forall f x x', vsame x x' -> dropped E f x = dropped E f x'.
Proof.
  intros f x x' S. pose proof (vsame_raw_zero _ _ S) as R. unfold dropped, omitted.
  inversion S; subst; destruct (f_T f); try reflexivity; try (now rewrite R).
Qed.
Definition vs_stable (v' : val) : Prop :=
  (forall t u, same_value E t v' u -> forall v, vsame v v' -> same_value E t v u) /\
  (forall f u, same_data E f v' u -> forall v, vsame v v' -> same_data E f v u) /\
  (forall f u, same_field E f v' u -> forall v, vsame v v' -> same_field E f v u).

Lemma vs_field : forall v', (forall f u, same_data E f v' u -> forall v, vsame v v' -> same_data E f v u) ->
  (forall w x, v' = VIface (Some (w, Some x)) -> vs_stable x) ->
  forall f u, same_field E f v' u -> forall v, vsame v v' -> same_field E f v u.
Proof.
  intros v' HD HX f u SF v VS. inversion SF; subst.
  - apply sf_plain; [assumption|]. now apply HD.
  - inversion VS as [| | | | |w0 y y' HY]; subst; [assumption|]. eapply sf_member; [eassumption| |].
    + now rewrite (vsame_dropped f _ _ HY).
    + destruct (HX _ _ eq_refl) as (_ & H' & _). eapply H'; eassumption.
  - inversion VS as [| | | | |w0 y y' HY]; subst; [assumption|]. eapply sf_dropped; [eassumption| |assumption].
    now rewrite (vsame_dropped f _ _ HY).
  - inversion VS; subst. assumption.
  - eapply sf_other; [eassumption| |assumption]. intros [o ->]. match goal with H : ~ holds w v' |- _ => apply H end.
    destruct (vsame_iface _ _ _ _ VS eq_refl) as (o' & ->). eexists; reflexivity.
Qed.

Lemma Forall2_vs : forall t e e0 u, Forall vs_stable e0 -> Forall2 (same_value E t) e0 u -> Forall2 vsame e e0 -> Forall2 (same_value E t) e u.
Proof.
  intros t e e0 u F. revert e u. induction F as [|x e0 Hx F IH]; intros e u S V; inversion S; subst; inversion V; subst; constructor.
  - destruct Hx as (H & _). eapply H; eassumption.
  - now apply IH.
Qed.

Lemma vsame_same : forall v', vs_stable v'.
Proof.
  assert (MK : forall v', (forall t u, same_value E t v' u -> forall v, vsame v v' -> same_value E t v u) ->
    (forall f u, same_data E f v' u -> forall v, vsame v v' -> same_data E f v u) ->
    (forall w x, v' = VIface (Some (w, Some x)) -> vs_stable x) -> vs_stable v').
  { intros v' H1 H2 H3. split; [assumption|]. split; [assumption|]. now apply vs_field. }
  assert (SD : forall v', (forall t u, same_value E t v' u -> forall v, vsame v v' -> same_value E t v u) ->
    (forall p, v' <> VPtr p) -> (forall e sp, v' <> VSlice e sp) -> (forall m, v' <> VMap m) ->
    (forall f u, same_data E f v' u -> forall v, vsame v v' -> same_data E f v u)).
  { intros v' H1 N1 N2 N3 f u SD v VS. inversion SD; subst; try (exfalso; ((now eapply N1) || (now eapply N2) || (now eapply N3))).
    apply sd_single; [assumption|]. now eapply H1; [|eassumption]. }
  induction v' as [|n|s|s|p H|e sp H H0|m H|l unk H|i H] using val_ind'.
  1-4: apply MK; [|apply SD; try discriminate|discriminate]; intros t u SV v VS; inversion VS; subst; assumption.
  - assert (A : forall t u, same_value E t (VPtr p) u -> forall v, vsame v (VPtr p) -> same_value E t v u).
    { intros t u SV v VS. inversion VS; subst; [assumption|]. inversion SV; subst. constructor. destruct H as (H & _). eapply H; eassumption. }
    apply MK; [exact A| |discriminate]. intros f u SD' v VS. inversion SD'; subst.
    + apply sd_single; [assumption|]. eapply A; eassumption.
    + inversion VS; subst. assumption.
    + inversion VS; subst; [assumption|]. eapply sd_set; [eassumption|]. destruct H as (H & _). eapply H; eassumption.
  - assert (A : forall t u, same_value E t (VSlice e sp) u -> forall v, vsame v (VSlice e sp) -> same_value E t v u).
    { intros t u SV. inversion SV. }
    apply MK; [exact A| |discriminate]. intros f u SD' v VS. inversion SD'; subst.
    + match goal with H : same_value _ _ (VSlice _ _) _ |- _ => inversion H end.
    + inversion VS; subst; [assumption|]. eapply sd_list; [eassumption|]. eapply Forall2_vs; [exact H|eassumption|eassumption].
  - assert (A : forall t u, same_value E t (VMap m) u -> forall v, vsame v (VMap m) -> same_value E t v u).
    { intros t u SV. inversion SV. }
    apply MK; [exact A| |discriminate]. intros f u SD' v VS. inversion SD' as [| | | |f0 kt vt m2 ent m' T PM F]; subst.
    + match goal with H : same_value _ _ (VMap _) _ |- _ => inversion H end.
    + inversion VS as [| | |m0 m1 m2 HP HF| |]; subst; [assumption|]. cbn [entries optP] in *.
      assert (F1 : Forall2 (fun b a => fst a = fst b /\ vsame (snd a) (snd b)) m2 m1).
      { clear - HF. induction HF; constructor; auto. }
      destruct (Permutation_Forall2 PM F1) as (ent' & P1 & F2).
      eapply (sd_map E f kt vt (Some m0) ent'); [assumption|cbn [entries]; now transitivity m1|].
      assert (HE : Forall (fun kv => vs_stable (snd kv)) ent).
      { apply Forall_forall. intros kv HI. rewrite Forall_forall in H. apply (H kv). eapply Permutation_in; [symmetry; exact PM|exact HI]. }
      clear - F F2 HE. revert ent' F2. induction F as [|a b ent l' [K S] F IH]; intros ent' F2; inversion F2 as [|? a' ? ? [K' S'] F3]; subst; constructor.
      * inversion HE as [|? ? HA _]; subst. split; [congruence|]. destruct HA as (HA & _). eapply HA; eassumption.
      * inversion HE; subst. now apply IH.
  - assert (A : forall t u, same_value E t (VStruct l unk) u -> forall v, vsame v (VStruct l unk) -> same_value E t v u).
    { intros t u SV v VS. inversion VS as [| | | |l0 l' u0 HL|]; subst; [assumption|]. inversion SV as [| | |id s u1 s' u' UE FS| |]; subst. constructor; [assumption|].
      intros f HI. destruct (FS f HI) as (slot & slot' & N1 & N2 & SF).
      assert (X : exists slot0, nth_error l0 (f_slot f) = Some slot0 /\ vsame slot0 slot).
      { clear - HL N1. revert N1. generalize (f_slot f). induction HL; intros [|n] N1; try discriminate N1; cbn in *; eauto. injection N1 as ->. eauto. }
      destruct X as (slot0 & N0 & VS0). exists slot0, slot'. split; [assumption|]. split; [assumption|].
      rewrite Forall_forall in H. destruct (H slot (nth_error_In _ _ N1)) as (_ & _ & H3). eapply H3; eassumption. }
    apply MK; [exact A|apply SD; [exact A|discriminate..]|discriminate].
  - assert (A : forall t u, same_value E t (VIface i) u -> forall v, vsame v (VIface i) -> same_value E t v u).
    { intros t u SV. inversion SV. }
    apply MK; [exact A|apply SD; [exact A|discriminate..]|]. intros w x X. injection X as ->. exact H.
Qed.

Theorem round_trip : forall id v v0, message E id v -> (forall n, levels E n id (Some v) -> (n <= 1000)%nat) -> vsame v v0 ->
  exists s, Marshal E (APtr id (Some v0)) = Ok s /\ (blen s < 2^63 -> forall P, exists v',
    Unmarshal E P s (APtr id (Some (sd_zero (E id)))) = DOk v' tt /\ same_value E (TStruct id) v v').
Proof.
  intros id v v0 M LV VS.
  destruct (msg E true 1000 id (Some v)) as [m|] eqn:DEN.
  2:{ destruct (msg_levels 1000 1000 id (Some v) ltac:(lia) (message_wt _ _ M) DEN) as (k & LT & L). apply LV in L. lia. }
  pose proof (msg_same E WF true 1000 1000 id v v0 ltac:(lia) VS) as MS. rewrite DEN in MS.
  destruct (msg E true 1000 id (Some v0)) as [m0|] eqn:DEN0; [|destruct MS].
  destruct (round_trip_msg id v0 m0 (vsame_wt E _ _ _ VS _ _ M) DEN0) as (s & H1 & H2). exists s. split; [exact H1|].
  intros SM P. destruct (H2 SM P) as (v' & H3 & H4). exists v'. split; [exact H3|]. destruct (vsame_same v0) as (H & _). eapply H; eassumption.
Qed.

(** ** Encoding the decoded message again *)
Section Again.
(** No field holds a message by value. *)
Hypothesis NV : forall id, no_value_messages E id.
Section Rec.
Variables rec recm : nat -> option val -> option pval.
Definition ok_rec (r : nat -> option val -> option pval) : Prop :=
  (forall id v v', same_value E (TStruct id) v v' -> orel pequiv (r id (Some v)) (r id (Some v'))) /\
  (forall id, r id None = r id (Some (sd_zero (E id)))).
Hypothesis Hrec : ok_rec rec.
Hypothesis Hrecm : ok_rec recm.

Lemma value_again : forall r tag t v v', ok_rec r -> same_value E t v v' -> orel pequiv (value_den r tag t v) (value_den r tag t v').
Proof.
  intros r tag t v v' [H1 H2] S. inversion S; subst; cbn [value_den].
  - apply orel_refl.
  - apply orel_refl.
  - match goal with H : unk_bytes _ = unk_bytes _ |- _ => unfold unk_bytes in H; rewrite H end. apply orel_refl.
  - now apply H1.
  - now apply H1.
  - rewrite H2. now apply H1.
Qed.
Lemma entry_again : forall f kt vt kv kv', fst kv = fst kv' -> same_value E vt (snd kv) (snd kv') ->
  orel pequiv (entry_den rec recm f kt vt kv) (entry_den rec recm f kt vt kv').
Proof.
  intros f kt vt [k v] [k' v'] Hk Hv. cbn in Hk, Hv. subst k'. unfold entry_den. cbn [fst snd].
  destruct (value_den rec (f_ktag f) kt k); [|exact I].
  pose proof (value_again recm (f_vtag f) vt v v' Hrecm Hv) as V.
  destruct (value_den recm (f_vtag f) vt v), (value_den recm (f_vtag f) vt v'); cbn in V; try contradiction; [|exact I].
  cbn. apply (pe_msg _ [(1, p); (2, p0)]); [reflexivity| |reflexivity].
  repeat constructor; cbn; auto.
Qed.
Lemma one_again : forall (num : N) o o', orel pequiv o o' ->
  orel frel (option_map (fun p => [(num, p)]) o) (option_map (fun p => [(num, p)]) o').
Proof.
  intros num [p|] [p'|] V; cbn in V; try contradiction; [|exact I]. cbn. split; [|reflexivity]. exists [(num, p)].
  split; [reflexivity|]. repeat constructor. exact V.
Qed.
Lemma data_again : forall f v v', supported f = true -> (forall id', f_T f <> TStruct id') -> same_data E f v v' ->
  orel frel (data_den E rec recm f v) (data_den E rec recm f v').
Proof.
  intros f v v' Sup NS S. pose proof (supported_elem f Sup) as SE. unfold data_den. inversion S as [f0 a b NP SV|f0 t T|f0 t x x' T SV|f0 t e e' sp sp' T F|f0 kt vt m ent m' T PM F]; subst.
  - assert (OM : omitted E (f_T f) v = omitted E (f_T f) v').
    { inversion SV; subst; try reflexivity.
      - cbn. match goal with H : unk_bytes _ = unk_bytes _ |- _ => unfold unk_bytes in H; revert H end.
        destruct o as [[|]|], o' as [[|]|]; cbn; congruence.
      - exfalso. eapply NS; symmetry; eassumption. }
    pose proof (value_again rec (f_tag f) (f_T f) v v' Hrec SV) as V.
    assert (G : orel frel (if omitted E (f_T f) v then Some [] else option_map (fun p => [(field_num f, p)]) (value_den rec (f_tag f) (f_T f) v))
      (if omitted E (f_T f) v' then Some [] else option_map (fun p => [(field_num f, p)]) (value_den rec (f_tag f) (f_T f) v'))).
    { rewrite <- OM. destruct (omitted E (f_T f) v); [apply frel_refl|]. now apply one_again. }
    destruct (f_T f) as [k| | |id|t|t|kt vt|alts|]; try exact G; try (inversion SV; fail). now destruct (NP t).
  - rewrite T. apply frel_refl.
  - rewrite T. apply one_again. now apply value_again.
  - rewrite T in *. destruct SE as (_ & V & HP).
    destruct (f_packed f) eqn:P.
    + destruct (HP eq_refl) as (k & -> & _). replace e' with e; [apply orel_frel_refl|]. clear - F. induction F as [|a b e e' S F IH]; [reflexivity|].
      inversion S; subst. now f_equal.
    + pose proof (omap_rel pequiv (same_value E t) (value_den rec (f_tag f) t) e e' F (fun x y _ Hxy => value_again rec _ _ _ _ Hrec Hxy)) as VV.
      destruct (omap _ e) as [l|], (omap _ e') as [l'|]; cbn in VV; try contradiction; [|exact I].
      cbn [orel]. split; [|apply map_fst_num; eapply Forall2_length'; eassumption].
      eexists. split; [reflexivity|]. now apply Forall2_map_num.
  - rewrite T in *. fold (entries m) (entries m').
    pose proof (omap_perm (entry_den rec recm f kt vt) _ _ PM) as P1.
    pose proof (omap_rel pequiv _ (entry_den rec recm f kt vt) ent (entries m') F
      (fun x y _ Hxy => entry_again f kt vt x y (proj1 Hxy) (proj2 Hxy))) as V.
    destruct (omap _ (entries m)) as [l0|], (omap _ ent) as [l1|]; cbn in P1; try contradiction;
      destruct (omap _ (entries m')) as [l'|]; cbn in V; try contradiction; [|exact I].
    cbn. split.
    + eexists. split; [apply Permutation_map; exact P1|]. now apply Forall2_map_num.
    + apply map_fst_num. rewrite (Permutation_length P1). eapply Forall2_length'; eassumption.
Qed.
Lemma field_again : forall f v v', supported f = true -> (forall id', f_T f <> TStruct id') -> same_field E f v v' ->
  orel frel (field_den E rec recm f v) (field_den E rec recm f v').
Proof.
  intros f v v' Sup NS S. unfold field_den.
  assert (NH : forall w s, ~ holds w s -> match s with VIface (Some (w', Some x)) => if Nat.eqb w' w then data_den E rec recm f x else Some [] | _ => Some [] end = Some []).
  { intros w s NH. destruct s as [| | | | | | | |[[w' [x|]]|]]; try reflexivity. destruct (Nat.eqb_spec w' w) as [->|]; [|reflexivity].
    exfalso. apply NH. eexists; reflexivity. }
  inversion S as [f0 a b O SD|f0 w x x' O DR SD|f0 w x s' O DR N'|f0 w s' O N'|f0 w s s' O N N']; subst; rewrite O.
  - now apply data_again.
  - rewrite Nat.eqb_refl. now apply data_again.
  - rewrite (NH w v' N'), Nat.eqb_refl. replace (data_den E rec recm f x) with (Some (@nil (N * pval))); [apply frel_refl|].
    symmetry. unfold dropped in DR. unfold data_den. destruct (f_T f) as [k| | |id|t|t|kt vt|alts|] eqn:T; try (now rewrite DR); try discriminate DR.
    destruct x as [| | | |[|]| | | |]; cbn in DR; try discriminate DR. reflexivity.
  - rewrite (NH w v' N'). apply frel_refl.
  - rewrite (NH w v' N'), (NH w v N). apply frel_refl.
Qed.
End Rec.

Lemma msg_again : forall two n d id v v', (d <= n)%nat -> same_value E (TStruct id) v v' ->
  orel pequiv (msg E two d id (Some v)) (msg E two d id (Some v')).
Proof.
  intros two. induction n as [|n IH]; intros d id v v' Hd S; destruct d as [|d]; try exact I; [lia|].
  cbn [msg].
  set (recm := if two then match d with O => fun _ _ => None | S d'' => msg E two d'' end else msg E two d).
  assert (H0 : ok_rec (msg E two d)). { split; [intros; apply IH; [lia|assumption]|]. intro. apply nil_is_zero. }
  assert (Hm : ok_rec recm).
  { unfold recm. destruct two; [|exact H0]. destruct d; [split; [intros; exact I|reflexivity]|].
    split; [intros; apply IH; [lia|assumption]|]. intro. apply nil_is_zero. }
  clearbody recm. inversion S as [| | |id0 s u s' u' UE FS| |]; subst.
  assert (A : orel (Forall2 frel) (omap (fun f => match nth_error s (f_slot f) with Some slot => field_den E (msg E two d) recm f slot | None => None end) (sd_fields (E id)))
     (omap (fun f => match nth_error s' (f_slot f) with Some slot => field_den E (msg E two d) recm f slot | None => None end) (sd_fields (E id)))).
  { assert (G : forall fs, (forall f, In f fs -> In f (sd_fields (E id))) -> 
      orel (Forall2 frel) (omap (fun f => match nth_error s (f_slot f) with Some slot => field_den E (msg E two d) recm f slot | None => None end) fs)
       (omap (fun f => match nth_error s' (f_slot f) with Some slot => field_den E (msg E two d) recm f slot | None => None end) fs)).
    { induction fs as [|f fs IHf]; intro HI; [constructor|]. cbn [omap].
      pose proof (HI f (or_introl eq_refl)) as HF. destruct (FS f HF) as (slot & slot' & N1 & N2 & SF). rewrite N1, N2.
      pose proof (field_again _ _ H0 Hm f slot slot' (wf_supported E WF id f HF) (NV id f HF) SF) as G.
      specialize (IHf (fun g Hg => HI g (or_intror Hg))).
      destruct (field_den E (msg E two d) recm f slot), (field_den E (msg E two d) recm f slot'); cbn in G; try contradiction; [|exact I].
      destruct (omap _ fs), (omap _ fs) in IHf |- *; cbn in IHf; try contradiction; [|exact I]. constructor; assumption. }
    apply G. auto. }
  unfold fields_den. destruct (omap _ _), (omap _ _) in A |- *; cbn in A; try contradiction; [|exact I].
  cbn. unfold unk_bytes in UE. rewrite UE. apply frel_concat in A as [(fs1 & P & F) M]. eapply pe_msg; eassumption.
Qed.
End Again.

(** ** Consequences for a field *)
Lemma same_struct_field : forall id v v' f, same_value E (TStruct id) v v' -> In f (sd_fields (E id)) ->
  exists slot slot', slot_of f v = Some slot /\ slot_of f v' = Some slot' /\ same_field E f slot slot'.
Proof. intros id v v' f S HI. inversion S; subst. cbn [slot_of]. auto. Qed.

Lemma oneof_kept : forall f w x slot', f_oneof f = Some w -> dropped E f x = false -> same_field E f (VIface (Some (w, Some x))) slot' ->
  exists x', slot' = VIface (Some (w, Some x')) /\ same_data E f x x'.
Proof.
  intros f w x slot' O D S. inversion S; subst; try congruence.
  - eauto.
  - match goal with H : ~ holds ?y (VIface _), H' : f_oneof f = Some ?y |- _ => exfalso; apply H; assert (y = w) as -> by congruence; eexists; reflexivity end.
Qed.
Lemma oneof_not_invented : forall f w slot x', f_oneof f = Some w -> same_field E f slot (VIface (Some (w, Some x'))) ->
  exists x, slot = VIface (Some (w, Some x)) /\ dropped E f x = false /\ same_data E f x x'.
Proof.
  intros f w slot x' O S. inversion S; subst; try congruence;
    try (match goal with H : ~ holds ?y (VIface (Some (_, Some x'))), H' : f_oneof f = Some ?y |- _ => exfalso; apply H; assert (y = w) as -> by congruence; eexists; reflexivity end).
  eauto.
Qed.
Lemma optional_kept : forall f t p slot', f_oneof f = None -> f_T f = TPtr t -> same_field E f (VPtr p) slot' ->
  match p with
  | Some x => exists x', slot' = VPtr (Some x') /\ same_value E t x x'
  | None => slot' = VPtr None
  end.
Proof.
  intros f t p slot' O T S. inversion S as [f0 a b O' SD| | | |]; subst; try congruence.
  inversion SD as [f0 a b NP SV|f0 t0 T0|f0 t0 x x' T0 SV|f0 t0 e e' sp sp' T0 F|f0 kt vt m ent m' T0 PM F]; subst.
  - now destruct (NP t).
  - reflexivity.
  - rewrite T in T0. injection T0 as <-. eauto.
Qed.
Lemma list_kept : forall f t e sp slot', f_oneof f = None -> f_T f = TSlice t -> same_field E f (VSlice e sp) slot' ->
  exists e' sp', slot' = VSlice e' sp' /\ Forall2 (same_value E t) e e'.
Proof.
  intros f t e sp slot' O T S. inversion S as [f0 a b O' SD| | | |]; subst; try congruence.
  inversion SD as [f0 a b NP SV|f0 t0 T0|f0 t0 x x' T0 SV|f0 t0 e0 e' sp0 sp' T0 F|f0 kt vt m ent m' T0 PM F]; subst.
  - inversion SV.
  - rewrite T in T0. injection T0 as <-. eauto.
Qed.
Lemma map_kept : forall f kt vt m slot', f_oneof f = None -> f_T f = TMap kt vt -> same_field E f (VMap m) slot' ->
  exists m', slot' = VMap m' /\ Permutation (map fst (entries m)) (map fst (entries m')).
Proof.
  intros f kt vt m slot' O T S. inversion S as [f0 a b O' SD| | | |]; subst; try congruence.
  inversion SD as [f0 a b NP SV|f0 t0 T0|f0 t0 x x' T0 SV|f0 t0 e0 e' sp0 sp' T0 F|f0 kt0 vt0 m0 ent m' T0 PM F]; subst.
  - inversion SV.
  - exists m'. split; [reflexivity|]. rewrite PM. clear - F. induction F as [|a b l l' [H _] F IH]; [reflexivity|]. cbn. rewrite H. now constructor.
Qed.
Lemma nil_elem : forall id x', same_value E (TPtr (TStruct id)) (VPtr None) x' ->
  exists y, x' = VPtr (Some y) /\ same_value E (TStruct id) (sd_zero (E id)) y.
Proof. intros id x' S. inversion S; subst. eauto. Qed.

Lemma again : forall id v s P v', (forall id, no_value_messages E id) -> message E id v -> (forall n, levels E n id (Some v) -> (n <= 1000)%nat) ->
  Marshal E (APtr id (Some v)) = Ok s -> blen s < 2^63 ->
  Unmarshal E P s (APtr id (Some (sd_zero (E id)))) = DOk v' tt ->
  exists m m', msg E false 1000 id (Some v) = Some m /\ msg E false 1000 id (Some v') = Some m' /\ pequiv m m' /\
    s = wire m /\ Marshal E (APtr id (Some v')) = Ok (wire m') /\ length (wire m') = length s.
Proof.
  intros id v s P v' NV M LV MS SM UM. destruct (round_trip id v v M LV (same_refl v)) as (s0 & MS0 & RT). rewrite MS in MS0. injection MS0 as <-.
  destruct (RT SM P) as (v1 & UM1 & SV). rewrite UM in UM1. injection UM1 as <-.
  pose proof (msg_again NV false 1000 1000 id v v' ltac:(lia) SV) as MA.
  pose proof (Marshal_wire E WF id (Some v) (message_wt _ _ M)) as MW.
  assert (W' : wt E (TStruct id) v').
  { destruct (Unmarshal_total E WF P id s (sd_zero (E id)) (zero_wt id)) as [(x & X & Y)|(x & e & X)]; congruence. }
  pose proof (Marshal_wire E WF id (Some v') W') as MW'.
  destruct (msg E false 1000 id (Some v)) as [m|]; [|congruence]. destruct (msg E false 1000 id (Some v')) as [m'|]; [|destruct MA].
  cbn in MA. destruct MW as (s1 & X & EQ). rewrite MS in X. injection X as <-. pose proof (EQ (or_introl SM)) as ->.
  destruct (pequiv_len _ _ MA) as (_ & _ & LW). destruct MW' as (s2 & X2 & EQ2).
  assert (X3 : s2 = wire m'). { apply EQ2. right. unfold small, blen in *. rewrite <- LW. exact SM. }
  subst s2. exists m, m'. auto 7.
Qed.
End RF.
