(** The decoding loop, structs and messages: the decoder on memory and the decoder on values. *)
From Coq Require Import Lia.
From Verif Require Import Base Wire Coder MapTables Value WireVal Desc Encoder Decoder MsgSpec WireConsume ValFacts DescProofs
  HMem HDecoder OwnSpec OwnMem OwnPost OwnCell OwnDec OwnDec2 OwnDec3.
Open Scope nat_scope.

(** ** Unknown fields *)
Lemma post_update : forall h A W x v L b T h1 x' v' W', pre h A W x v L b T -> next h <= next h1 ->
  (forall o, o < next h -> ~ In o W -> objs h1 o = objs h o) -> owns h1 A W' x' v' -> NoDup W' ->
  (forall o, In o W' -> (In o W \/ next h <= o) /\ o < next h1) ->
  post h A W L T (hstore h1 L x') x' v' A W' T.
Proof.
  intros h A W x v L b T h1 x' v' W' [p1 p2 p3 p4 p5 p6 p7 p8] N F O ND HW.
  assert (NL : ~ In (l_obj L) W) by (intro K; apply p4 in K; tauto).
  constructor; auto; rewrite ?hstore_next.
  - apply (owns_frame h1 A _ A); auto.
    + intros o Ho. apply hstore_other. intros ->. apply p5 in Ho. tauto.
    + now intros o Ho.
    + intros o Ho. apply hstore_other. intros ->. destruct (HW _ Ho) as ([K|K] & _); [auto|lia].
  - apply hstore_ext. apply F; [tauto|exact NL].
  - exact N.
  - intros o Lo Do Wo _. rewrite hstore_other by exact Do. auto.
  - now intros o Ho.
  - intros o Ho. apply p5 in Ho as Z. split; [now left|lia].
  - intros o Ho. destruct (HW _ Ho) as (K & K1). repeat split; auto. intro Z.
    destruct K as [K|K]; [apply p4 in K; tauto|apply p5 in Z; lia].
  - intros o Ho. destruct (p8 _ Ho) as (K1 & K2 & K3 & K4 & _). repeat split; auto; [lia|].
    intro Z. destruct (HW _ Z) as ([K|K] & _); [auto|lia].
Qed.

Lemma post_reset : forall h A W xs u vs ub L b T s, pre h A W (MStruct xs u) (VStruct vs ub) L b T ->
  exists u' W', post h A W L T (hresetUnknownFields h s L) (MStruct xs u') (VStruct vs (resetUnknownFields s ub)) A W' T.
Proof.
  intros h A W xs u vs ub L b T s P. pose proof P as P0. destruct P as [p1 p2 p3 p4 p5 p6 p7 p8].
  unfold hresetUnknownFields, resetUnknownFields. rewrite p2.
  apply owns_struct_inv in p1 as (W1 & W2 & -> & H1 & H2).
  assert (Refl : forall z, z = ub -> exists u' W', post h A (W1 ++ W2) L T h (MStruct xs u') (VStruct vs z) A W' T).
  { intros z ->. exists u, (W1 ++ W2). eapply post_refl, P0. }
  destruct (sd_unknown s); [|destruct u; now apply Refl].
  inversion H2; subst; [now apply Refl| |].
  - exists (Some (mkSl (s_arr u0) (s_off u0) 0 (s_cap u0))), (W1 ++ []).
    eapply post_update; [exact P0|lia|reflexivity| |exact p3|].
    + apply owns_struct; [exact H1|]. constructor; [reflexivity|exact H0].
    + intros o Ho. destruct (p4 _ Ho) as (? & ? & _). auto.
  - exists (Some (mkSl (s_arr u0) (s_off u0) 0 (s_cap u0))), (W1 ++ [s_arr u0]).
    eapply post_update; [exact P0|lia|reflexivity| |exact p3|].
    + apply owns_struct; [exact H1|]. change [s_arr u0] with [s_arr (mkSl (s_arr u0) (s_off u0) 0 (s_cap u0))].
      change (Some []) with (Some (rd h (mkSl (s_arr u0) (s_off u0) 0 (s_cap u0)))). constructor; cbn; [exact H|lia|exact H3].
    + intros o Ho. destruct (p4 _ Ho) as (? & ? & _). auto.
Qed.

Lemma write_bytes_rd : forall h o off len raw cap, off + len + length raw <= length (bytes_of h o) ->
  rd (write_bytes h o (off + len) raw) (mkSl o off (len + length raw) cap) = rd h (mkSl o off len cap) ++ raw /\
  length (bytes_of (write_bytes h o (off + len) raw) o) = length (bytes_of h o).
Proof.
  intros h o off len raw cap H. unfold rd, write_bytes. cbn [s_arr s_off s_len].
  assert (Eb : bytes_of (set_obj h o (OBytes (firstn (off + len) (bytes_of h o) ++ raw ++ skipn (off + len + length raw) (bytes_of h o)))) o
    = firstn (off + len) (bytes_of h o) ++ raw ++ skipn (off + len + length raw) (bytes_of h o)).
  { unfold bytes_of at 1. now rewrite set_obj_same. }
  rewrite Eb. generalize dependent (bytes_of h o). intros l H _. split.
  - rewrite skipn_app. rewrite firstn_length_le by lia. replace (off - (off + len)) with 0 by lia. cbn [skipn].
    rewrite skipn_firstn_comm. replace (off + len - off) with len by lia.
    assert (Ll : length (firstn len (skipn off l)) = len) by (rewrite firstn_length, skipn_length; lia).
    rewrite firstn_app, Ll. rewrite firstn_all2 by lia. f_equal.
    replace (len + length raw - len) with (length raw) by lia. rewrite firstn_app, firstn_all, Nat.sub_diag. apply app_nil_r.
  - rewrite !app_length, firstn_length_le, skipn_length by lia. lia.
Qed.

Section Sim.
Variable E : env.
Hypothesis WF : wf_env E.
Variable capf : nat -> nat.

Lemma happend_spec : forall h (A : nat -> Prop) W1 W2 xs vs u ub raw, owns_all h A W1 xs vs -> owns_unknown h W2 u ub -> raw <> [] ->
  NoDup (W1 ++ W2) -> (forall o, In o (W1 ++ W2) -> ~ A o /\ o < next h) -> (forall o, A o -> o < next h) ->
  let '(h1, u1) := happend capf h u raw in
  exists W', next h <= next h1 /\ (forall o, o < next h -> ~ In o (W1 ++ W2) -> objs h1 o = objs h o) /\
    owns h1 A W' (MStruct xs (Some u1)) (VStruct vs (Some (match ub with Some x => x ++ raw | None => raw end))) /\
    NoDup W' /\ (forall o, In o W' -> (In o (W1 ++ W2) \/ next h <= o) /\ o < next h1).
Proof.
  intros h A W1 W2 xs vs u ub raw H1 H2 NR ND HW HA.
  assert (LR : 0 < length raw) by (destruct raw; [congruence|cbn; lia]).
  set (u0 := match u with Some u => u | None => nil_slice end).
  set (ub0 := match ub with Some x => x | None => [] end).
  assert (EU : match ub with Some x => x ++ raw | None => raw end = ub0 ++ raw) by (unfold ub0; now destruct ub).
  assert (RU : rd h u0 = ub0 /\ length ub0 = s_len u0 /\ (W2 = [] /\ s_cap u0 = 0 /\ s_len u0 = 0 \/ W2 = [s_arr u0] /\ s_len u0 <= s_cap u0 /\ s_off u0 + s_cap u0 <= length (bytes_of h (s_arr u0)))).
  { unfold u0, ub0. destruct H2.
    - split; [reflexivity|]. split; [reflexivity|]. left. auto.
    - split; [unfold rd; now rewrite H|]. split; [cbn; congruence|]. left; auto.
    - split; [reflexivity|]. split; [apply rd_length; unfold valid_in; lia|]. right; auto. }
  rewrite EU. unfold happend. fold u0. destruct RU as (R1 & R2 & R3).
  destruct (Nat.leb_spec (s_len u0 + length raw) (s_cap u0)) as [Le|Lt].
  - destruct R3 as [(_ & ? & ?)|(-> & R3 & R4)]; [lia|].
    destruct (write_bytes_rd h (s_arr u0) (s_off u0) (s_len u0) raw (s_cap u0)) as [E1 E2]; [lia|].
    set (h1 := write_bytes h (s_arr u0) (s_off u0 + s_len u0) raw) in *.
    set (u1 := mkSl (s_arr u0) (s_off u0) (s_len u0 + length raw) (s_cap u0)) in *.
    replace (rd h (mkSl (s_arr u0) (s_off u0) (s_len u0) (s_cap u0))) with ub0 in E1 by (now destruct u0).
    exists (W1 ++ [s_arr u0]). split; [reflexivity|]. split.
    { intros o _ Ho. apply set_obj_other. intros ->. apply Ho, in_or_app. right. now left. }
    split; [|split; [exact ND|]].
    + apply owns_struct.
      * apply (owns_all_frame h A h1 A); auto.
        -- intros o Ho. apply set_obj_other. intros ->. apply (HW (s_arr u0)); [apply in_or_app; right; now left|exact Ho].
        -- now intros o Ho.
        -- intros o Ho. apply set_obj_other. intros ->.
           destruct (NoDup_app3 W1 [s_arr u0] []) as (_ & K & _); [now rewrite app_nil_r|]. destruct (K (s_arr u0)) as [Z _]; [now left|]. exact (Z Ho).
      * rewrite <- E1. change [s_arr u0] with [s_arr u1]. constructor; cbn [u1 s_cap s_len s_off s_arr]; lia.
    + intros o Ho. split; [now left|]. now apply HW.
  - set (c := Nat.max (s_len u0 + length raw) (capf (s_len u0 + length raw))). rewrite halloc_eq. rewrite R1.
    set (n := s_len u0 + length raw) in *. set (bb := ub0 ++ raw ++ repeat Byte.x00 (c - n)).
    assert (Hc : n <= c) by (unfold c; lia). 
    exists (W1 ++ [next h]). rewrite halloc_next. split; [lia|]. split; [intros o Ho _; now apply halloc_old|].
    assert (NI : ~ In (next h) W1).
    { intro K. assert (In (next h) (W1 ++ W2)) as Z by (apply in_or_app; now left). apply HW in Z. lia. }
    split; [|split].
    + apply owns_struct.
      * apply (owns_all_frame h A _ A); auto.
        -- intros o Ho. apply halloc_old. now apply HA.
        -- now intros o Ho.
        -- intros o Ho. apply halloc_old. apply HW, in_or_app. now left.
      * assert (Er : rd (fst (halloc h (OBytes bb))) (mkSl (next h) 0 n c) = ub0 ++ raw).
        { unfold rd, bytes_of. cbn [s_arr s_off s_len]. rewrite halloc_new. cbn [skipn]. unfold bb. rewrite app_assoc, firstn_app.
          rewrite app_length, R2. rewrite Nat.sub_diag. cbn [firstn]. rewrite app_nil_r. apply firstn_all2. rewrite app_length. lia. }
        rewrite <- Er at 1. change [next h] with [s_arr (mkSl (next h) 0 n c)]. constructor; cbn [s_cap s_len s_off s_arr].
        -- lia. -- exact Hc.
        -- unfold bytes_of. rewrite halloc_new. unfold bb. rewrite !app_length, repeat_length. lia.
    + apply (NoDup_mid W1 [next h] []).
      * rewrite app_nil_r. apply (NoDup_app3 [] W1 W2) in ND. tauto.
      * constructor; [intro Z; exact Z|constructor].
      * intros o [<-|[]]. split; [exact NI|intro Z; exact Z].
    + intros o Ho. apply in_app_or in Ho as [Ho|[<-|[]]].
      * assert (In o (W1 ++ W2)) as Z by (apply in_or_app; now left). split; [now left|]. apply HW in Z. lia.
      * split; [right; lia|lia].
Qed.

Lemma post_append : forall h A W xs u vs ub L b T s raw, pre h A W (MStruct xs u) (VStruct vs ub) L b T -> raw <> [] ->
  exists u' W', post h A W L T (happendToUnknownFields capf h s L raw) (MStruct xs u') (VStruct vs (appendToUnknownFields s ub raw)) A W' T.
Proof.
  intros h A W xs u vs ub L b T s raw P NR. pose proof P as P0. destruct P as [p1 p2 p3 p4 p5 p6 p7 p8].
  unfold happendToUnknownFields, appendToUnknownFields.
  destruct (sd_unknown s); [|exists u, W; eapply post_refl, P0]. rewrite p2.
  apply owns_struct_inv in p1 as (W1 & W2 & -> & H1 & H2).
  pose proof (happend_spec h A W1 W2 xs vs u ub raw H1 H2 NR p3) as G.
  specialize (G ltac:(intros o Ho; destruct (p4 _ Ho) as (? & ? & _); auto) ltac:(intros o Ho; now apply p5)).
  destruct (happend capf h u raw) as [h1 u1]. destruct G as (W' & N & F & O & ND & HW).
  exists (Some u1), W'. eapply post_update; eauto.
Qed.

Lemma post_moreT : forall h A W L T h' x' v' A' W' T', post h A W L [] h' x' v' A' W' T' -> post h A W L T h' x' v' A' W' T'.
Proof.
  intros h A W L T h' x' v' A' W' T' [q1 q2 q3 q4 q5 q6 q7 q8 q9]. constructor; auto.
  intros o Ho. destruct (q9 _ Ho) as ([[]|K] & K1). auto.
Qed.

Definition R0 {X Y} (h : mem) (a : X) (c : Y) (T' : list nat) : Prop := T' = [].
Lemma sim_moreT : forall {X Y} h A W L T (r : hres X) (d : dres Y), sim h A W L [] r d R0 -> sim h A W L T r d R0.
Proof.
  intros X Y h A W L T r d H. unfold sim in *. destruct r, d; auto.
  - destruct H as (x' & A' & W' & T' & HT & Q). exists x', A', W', T'. split; [exact HT|]. now apply post_moreT.
  - destruct H as (H & x' & A' & W' & Q). split; [exact H|]. exists x', A', W'. now apply post_moreT.
Qed.
Lemma sim_trans : forall {X Y} h A W x v L b T h1 x1 v1 A1 W1 T1 (r : hres X) (d : dres Y) R, pre h A W x v L b T ->
  post h A W L T h1 x1 v1 A1 W1 T1 -> sim h1 A1 W1 L T1 r d R -> sim h A W L T r d R.
Proof.
  intros X Y h A W x v L b T h1 x1 v1 A1 W1 T1 r d R P Q H. unfold sim in *. destruct r, d; auto.
  - destruct H as (x' & A' & W' & T' & HT & Q'). exists x', A', W', T'. split; [exact HT|]. eapply post_trans; eauto.
  - destruct H as (-> & x' & A' & W' & Q'). split; [reflexivity|]. exists x', A', W'. eapply post_trans; eauto.
Qed.

(** ** The loop *)
Section Loop.
Variable hrec : bytes -> mem -> nat -> Z -> slice -> loc -> hres unit.
Variable rec : bytes -> nat -> Z -> bytes -> val -> dres unit.
Hypothesis Hrec : forall rest h A W x v L b id depth, pre h A W x v L b [] ->
  sim h A W L [] (hrec rest h id depth b L) (rec rest id depth (rd h b) v) (fun _ _ _ T' => T' = []).
Variable id : nat.
Variable depth : Z.
Variable hg : bytes -> fdesc -> mv * mv.
Variable gt : bytes -> fdesc -> val * val.


Lemma loop_sim : forall fuel h A W xs u vs ub L b T f tmv tmt, pre h A W (MStruct xs u) (VStruct vs ub) L b T -> held h tmv T ->
  match f with Some f0 => In f0 (sd_fields (E id)) | None => True end ->
  sim h A W L T (hdecode_loop E capf hrec fuel (E id) depth hg h f tmv L b)
    (decode_loop E rec fuel (E id) depth gt f tmt vs ub (rd h b)) R0.
Proof.
  induction fuel as [|fuel IH]; intros h A W xs u vs ub L b T f tmv tmt P HH Hf;
    pose proof (p_b _ _ _ _ _ _ _ _ P) as [Hb Vb]; pose proof (rd_length _ _ Vb) as Lb.
  - cbn [hdecode_loop decode_loop]. destruct (rd h b) as [|c rb] eqn:Er; cbn in Lb; rewrite <- Lb; [|exact Logic.I].
    cbn. do 4 eexists. split; [reflexivity|]. eapply post_noT, post_refl, P.
  - cbn [hdecode_loop decode_loop]. destruct (rd h b) as [|c rb] eqn:Er; cbn in Lb; rewrite <- Lb.
    { cbn. do 4 eexists. split; [reflexivity|]. eapply post_noT, post_refl, P. }
    rewrite <- Er. clear Er Lb c rb.
    destruct (ConsumeTag (rd h b)) as [[[num typ] n]|e| |] eqn:Et; cbn [hbind dbind]; try exact Logic.I; [|eapply sim_err; eauto].
    pose proof (hslice_from_spec h b n Vb) as S1.
    destruct (hslice_from b n) as [b1|e| |], (slice_from (rd h b) n) as [r1|e'| |]; try contradiction; cbn [hbind dbind]; try exact Logic.I.
    destruct S1 as (Eb1 & Vb1 & <-).
    set (cached := match f with Some f0 => if (f_id f0 =? Z.of_N num)%Z then Some f0 else None | None => None end) in *.
    assert (HC : match cached with Some f0 => In f0 (sd_fields (E id)) | None => True end).
    { unfold cached. destruct f as [f0|]; [|exact Logic.I]. destruct (f_id f0 =? Z.of_N num)%Z; [exact Hf|exact Logic.I]. }
    (* the case of a record of an unknown field *)
    assert (UNK : forall T0 tmv0 tmt0, pre h A W (MStruct xs u) (VStruct vs ub) L b T0 -> held h tmv0 T0 ->
      sim h A W L T0
        (hlet m <- ConsumeFieldValue num typ (rd h b1) at h;
         hlet b2 <- hslice_from b1 m at h;
         hlet raw <- slice_to (rd h b) (n + m) at h;
         hdecode_loop E capf hrec fuel (E id) depth hg (happendToUnknownFields capf h (E id) L raw) None tmv0 L b2)
        (dlet m <- ConsumeFieldValue num typ (rd h b1) at VStruct vs ub;
         dlet b2 <- slice_from (rd h b1) m at VStruct vs ub;
         dlet raw <- slice_to (rd h b) (n + m) at VStruct vs ub;
         decode_loop E rec fuel (E id) depth gt None tmt0 vs (appendToUnknownFields (E id) ub raw) b2) R0).
    { intros T0 tmv0 tmt0 P0 H0.
      destruct (ConsumeFieldValue num typ (rd h b1)) as [m|e| |]; cbn [hbind dbind]; try exact Logic.I; [|eapply sim_err; eauto].
      pose proof (hslice_from_spec h b1 m Vb1) as S2.
      destruct (hslice_from b1 m) as [b2|e| |], (slice_from (rd h b1) m) as [r2|e'| |]; try contradiction; cbn [hbind dbind]; try exact Logic.I.
      destruct S2 as (Eb2 & Vb2 & <-).
      destruct (slice_to (rd h b) (n + m)) as [raw|e| |] eqn:Es; cbn [hbind dbind]; try exact Logic.I; [|eapply sim_err; eauto].
      assert (NR : raw <> []).
      { apply ConsumeTag_inv in Et as (t & r & Et & Lt & Ln & _). unfold slice_to in Es.
        destruct (n + m <=? length (rd h b)) eqn:El; [|discriminate]. apply Nat.leb_le in El. injection Es as <-.
        intro Z. apply (f_equal (@length _)) in Z. rewrite firstn_length in Z. cbn in Z. lia. }
      destruct (post_append _ _ _ _ _ _ _ _ _ _ (E id) _ P0 NR) as (u' & W' & Q).
      assert (Eb : s_arr b2 = s_arr b) by congruence.
      pose proof (pre_post _ _ _ _ _ _ _ _ _ _ _ _ _ _ b2 P0 Q Eb Vb2) as P2.
      eapply sim_trans; [exact P0|exact Q|].
      replace (rd h b2) with (rd (happendToUnknownFields capf h (E id) L raw) b2)
        by (apply rd_ext; right; rewrite Eb; eapply post_b; eauto).
      eapply IH; [exact P2| |exact Logic.I].
      eapply held_frame; [exact H0|]. intros o Ho. destruct (p_T _ _ _ _ _ _ _ _ P0 o Ho) as (K1 & K2 & K3 & K4 & K5).
      unfold happendToUnknownFields. destruct (sd_unknown (E id)); [|reflexivity].
      rewrite (p_load _ _ _ _ _ _ _ _ P0). pose proof (p_owns _ _ _ _ _ _ _ _ P0) as OO.
      apply owns_struct_inv in OO as (W1 & W2 & -> & O1 & O2).
      pose proof (happend_spec h A W1 W2 xs vs u ub raw O1 O2 NR (p_nodup _ _ _ _ _ _ _ _ P0)) as G.
      specialize (G ltac:(intros z Hz; destruct (p_W _ _ _ _ _ _ _ _ P0 _ Hz) as (? & ? & _); auto) ltac:(intros z Hz; now apply (p_A _ _ _ _ _ _ _ _ P0))).
      destruct (happend capf h u raw) as [h1 u1]. destruct G as (W3 & N & F & _).
      rewrite hstore_other by exact K2. now apply F. }
    (* the case of a record of a declared field *)
    assert (KNOWN : forall f1 T0 tmv0 tmt0, In f1 (sd_fields (E id)) -> pre h A W (MStruct xs u) (VStruct vs ub) L b T0 -> held h tmv0 T0 ->
      sim h A W L T0
        (match hload h (slot L (f_slot f1)) with
         | None => HPanic
         | Some _ =>
             hseq (hdec_field E (hrec (rd h b)) h f1 typ depth b1 (hg (rd h b) f1) tmv0 (slot L (f_slot f1)))
               (fun h '(tmv', m) =>
                hlet b2 <- hslice_from b1 m at h;
                hdecode_loop E capf hrec fuel (E id) depth hg h (Some f1) tmv' L b2)
         end)
        (match nth_error vs (f_slot f1) with
         | None => DPanic
         | Some slot =>
             match dec_field E (rec (rd h b)) f1 typ depth (rd h b1) (gt (rd h b) f1) tmt0 slot with
             | DOk slot' (tmv', m) =>
                 let slots' := upd_nth (f_slot f1) slot' vs in
                 dlet b2 <- slice_from (rd h b1) m at VStruct slots' ub;
                 decode_loop E rec fuel (E id) depth gt (Some f1) tmv' slots' ub b2
             | DErr slot' e => DErr (VStruct (upd_nth (f_slot f1) slot' vs) ub) e
             | DPanic => DPanic
             | DFuel => DFuel
             end
         end) R0).
    { intros f1 T0 tmv0 tmt0 Hf1 P0 H0.
      rewrite (hload_slot _ _ _ _ _ (p_load _ _ _ _ _ _ _ _ P0)).
      destruct (nth_error xs (f_slot f1)) as [x|] eqn:Ex.
      - destruct (pre_slot _ _ _ _ _ _ _ _ _ _ _ _ P0 Ex) as (v & Wi & Ev & Pi & Lift). rewrite Ev.
        assert (Pi1 : pre h A Wi x v (slot L (f_slot f1)) b1 T0) by (eapply pre_sub; eauto).
        destruct (wf_fields _ _ (WF id) f1 Hf1) as (_ & SU & _).
        pose proof (dec_field_sim E WF capf (hrec (rd h b)) (rec (rd h b)) (Hrec (rd h b)) _ _ _ _ _ _ _ _ f1 typ depth
          (hg (rd h b) f1) (gt (rd h b) f1) tmv0 tmt0 Pi1 H0 SU) as FS.
        unfold sim in FS.
        destruct (hdec_field E (hrec (rd h b)) h f1 typ depth b1 (hg (rd h b) f1) tmv0 (slot L (f_slot f1))) as [h' [tmv' m]|h' e| |],
          (dec_field E (rec (rd h b)) f1 typ depth (rd h b1) (gt (rd h b) f1) tmt0 v) as [v' [tmt' m']|v' e'| |];
          cbn [hseq]; try contradiction; try exact Logic.I.
        + destruct FS as (x' & A' & Wi' & T' & [Em HT] & Q). cbn in Em. subst m'.
          destruct (Lift _ _ _ _ _ _ Q) as [W' Q']. eapply sim_trans; [exact P0|exact Q'|].
          pose proof (pre_post _ _ _ _ _ _ _ _ _ _ _ _ _ _ b1 P0 Q' Eb1 Vb1) as P1.
          replace (rd h b1) with (rd h' b1) by (apply rd_ext; right; rewrite Eb1; eapply post_b; eauto).
          pose proof (hslice_from_spec h' b1 m (proj2 (p_b _ _ _ _ _ _ _ _ P1))) as S2.
          destruct (hslice_from b1 m) as [b2|e| |], (slice_from (rd h' b1) m) as [r2|e'| |]; try contradiction; cbn [hbind dbind]; try exact Logic.I.
          destruct S2 as (Eb2 & Vb2 & <-). eapply IH; [|exact HT|exact Hf1].
          eapply pre_sub; eauto.
        + destruct FS as (-> & x' & A' & Wi' & Q). destruct (Lift _ _ _ _ _ _ Q) as [W' Q'].
          cbn. split; [reflexivity|]. eauto.
      - pose proof (p_owns _ _ _ _ _ _ _ _ P0) as OO. apply owns_struct_inv in OO as (W1 & W2 & -> & O1 & O2).
        now rewrite (owns_all_nth_none _ _ _ _ _ O1 _ Ex). }
    destruct cached as [f1|].
    + cbn iota. eapply KNOWN; eauto.
    + cbn iota. apply sim_moreT. pose proof (pre_noT _ _ _ _ _ _ _ _ P) as P0.
      destruct (GetField_In E WF id num) as ([f1|] & -> & HI).
      * eapply KNOWN; eauto. reflexivity.
      * eapply UNK; eauto. reflexivity.
Qed.
End Loop.

(** ** Structs *)
Lemma struct_sim : forall fuel path tpath HP TP h A W x v L b id depth, pre h A W x v L b [] ->
  sim h A W L [] (HDecodeStruct E capf fuel path HP h id depth b L) (DecodeStruct E fuel tpath TP id depth (rd h b) v)
    (fun _ _ _ T' => T' = []).
Proof.
  induction fuel as [|fuel IH]; intros path tpath HP TP h A W x v L b id depth P; [exact Logic.I|].
  cbn [HDecodeStruct DecodeStruct]. destruct (depth =? 0)%Z; [eapply sim_err; eauto|].
  rewrite (p_load _ _ _ _ _ _ _ _ P). pose proof (owns_kind _ _ _ _ _ (p_owns _ _ _ _ _ _ _ _ P)) as K.
  destruct x as [| | | | | | |xs u|]; destruct v as [| | | | | | |vs ub|]; try discriminate K; try exact Logic.I.
  pose proof (p_b _ _ _ _ _ _ _ _ P) as [Hb Vb]. rewrite (rd_length _ _ Vb).
  destruct (post_reset _ _ _ _ _ _ _ _ _ _ (E id) P) as (u' & W' & Q).
  eapply sim_trans; [exact P|exact Q|].
  replace (rd h b) with (rd (hresetUnknownFields h (E id) L) b) by (apply rd_ext; right; eapply post_b; eauto).
  eapply loop_sim; [|eapply pre_post; eauto|reflexivity|exact Logic.I].
  intros rest h1 A1 W1 x1 v1 L1 b1 id1 depth1 P1. now apply IH with (x := x1) (W := W1).
Qed.
End Sim.
