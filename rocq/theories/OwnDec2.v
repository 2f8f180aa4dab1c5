(** Map pairs, fields, structs: the decoder on memory and the decoder on values. *)
From Coq Require Import Lia.
From Verif Require Import Base Wire Coder MapTables Value WireVal Desc Encoder Decoder MsgSpec WireConsume ValFacts DescProofs
  HMem HDecoder OwnSpec OwnMem OwnPost OwnCell OwnDec.
Open Scope nat_scope.

Section Sim.
Variable E : env.
Hypothesis WF : wf_env E.
Variable capf : nat -> nat.


(** Only [vo] and new memory have changed *)
Record side (h : mem) (A : nat -> Prop) (vo : nat) (h' : mem) (A' : nat -> Prop) : Prop := {
  d_next : next h <= next h';
  d_frame : forall o, o < next h -> o <> vo -> objs h' o = objs h o;
  d_AA : incl_p A A';
  d_A : forall o, A' o -> (A o \/ next h <= o) /\ o < next h'
}.

Section Var.
Variables (h : mem) (A : nat -> Prop) (vo : nat) (y0 : mv).
Hypothesis HO : objs h vo = OCells [y0].
Hypothesis HV : vo < next h.
Hypothesis HA : forall o, A o -> o < next h /\ o <> vo.

Lemma side_store : forall h1 y, allocs h h1 -> side h A vo (hstore h1 (cell vo) y) (plus A h h1).
Proof.
  intros h1 y [N F]. constructor; rewrite ?hstore_next.
  - exact N.
  - intros o Lo D. rewrite hstore_other by exact D. auto.
  - intros o Ho. now left.
  - intros o [Ho|Ho]; [|tauto]. destruct (HA _ Ho). split; [now left|lia].
Qed.
Lemma side_refl : side h A vo h A.
Proof. constructor; auto; [now intros o Ho|]. intros o Ho. destruct (HA _ Ho). auto. Qed.
Lemma store_copy : forall fb y v, valid_in h fb -> 
  (forall A' h', in_bytes h' A' (snd (hcopy h fb)) -> rd h' (snd (hcopy h fb)) = rd h fb -> reads h' A' y v) ->
  let h1 := hstore (fst (hcopy h fb)) (cell vo) y in
  let A1 := plus A h (fst (hcopy h fb)) in
  side h A vo h1 A1 /\ objs h1 vo = OCells [y] /\ reads h1 A1 y v.
Proof.
  intros fb y v V R h1 A1. destruct (hcopy_spec h fb A V) as (Al & I1 & E1). split; [|split].
  - now apply side_store.
  - apply (hstore_cell _ _ y0). destruct Al as [N F]. rewrite F by exact HV. exact HO.
  - assert (Eo : s_len (snd (hcopy h fb)) = 0 \/ objs h1 (s_arr (snd (hcopy h fb))) = objs (fst (hcopy h fb)) (s_arr (snd (hcopy h fb)))).
    { destruct I1 as [I1|[I1 _]]; [now left|]. right. unfold h1. apply hstore_other. cbn [cell l_obj]. intro Z. rewrite Z in I1.
      destruct I1 as [K|K]; [now apply HA in K|lia]. }
    apply R; [|rewrite <- E1; now apply rd_ext]. destruct I1 as [I1|[I1 V1]]; [now left|]. destruct Eo as [Eo|Eo]; [now left|].
    right. split; [exact I1|]. unfold bytes_of in *. now rewrite Eo.
Qed.
End Var.

Lemma key_sim : forall h (A : nat -> Prop) ko y0 b f kt kv, objs h ko = OCells [y0] -> ko < next h ->
  (forall o, A o -> o < next h /\ o <> ko) -> s_arr b < next h /\ s_arr b <> ko -> valid_in h b ->
  key_ok (f_ktag f) kt = true ->
  match HDecodeMapKey h f kt b (cell ko), DecodeMapKey f kt (rd h b) kv with
  | HOk h' n, Ok (v', n') => n = n' /\ exists A' y, side h A ko h' A' /\ objs h' ko = OCells [y] /\ reads h' A' y v'
  | HErr h' e, Err e' => e = e' /\ h' = h
  | HPanic, Panic => True
  | HFuel, OutOfFuel => True
  | _, _ => False
  end.
Proof.
  intros h A ko y0 b f kt kv HO HV HA HB V KO. unfold HDecodeMapKey, DecodeMapKey.
  destruct (ConsumeKVTag (rd h b)) as [[num typ]|]; [|auto].
  destruct num as [|[p|p|]]; auto.
  pose proof (hslice_from_spec h b 1 V) as SF.
  destruct (hslice_from b 1) as [b1| | |], (slice_from (rd h b) 1) as [r1| | |]; cbn [hbind bind]; try contradiction; auto.
  destruct SF as (Ea & V1 & <-). rewrite dec_scalar_num.
  destruct (scalar_num (f_ktag f) kt typ (rd h b1)) as [[[o n]| | |]|] eqn:Es; cbn [hbind bind]; auto.
  - destruct kt; try discriminate KO.
    + apply andb_true_iff in KO as [KO _]. destruct (scalar_num_stores _ _ _ _ _ _ KO Es) as [m ->]. cbn [hput].
      split; [reflexivity|]. exists (plus A h h), (MNum m). split; [|split].
      * apply (side_store h A ko); auto. apply allocs_refl.
      * now apply (hstore_cell _ _ y0).
      * constructor.
    + pose proof (scalar_num_bytes TString typ (rd h b1)) as SB. cbn [key_ok] in KO.
      destruct (f_ktag f); try discriminate KO. rewrite Es in SB. contradiction.
  - destruct (typ =? WBytes)%N; [|auto]. destruct kt; auto.
    pose proof (HConsumeBytes_spec h b1 V1) as CB.
    destruct (HConsumeBytes h b1) as [[fb n]| | |], (ConsumeBytes (rd h b1)) as [[bb n']| | |]; cbn [hbind bind]; try contradiction; auto.
    destruct CB as (-> & Eb & Vb & <-).
    destruct (hcopy h fb) as [h1 s] eqn:Ec. split; [reflexivity|].
    destruct (store_copy h A ko y0 HO HV HA fb (MStr s) (VStr (rd h fb)) Vb) as (K1 & K2 & K3).
    + rewrite Ec. cbn [snd]. intros A' h' I1 <-. now constructor.
    + rewrite Ec in *. cbn [fst snd] in *. eauto.
Qed.

Section Rec.
Variable hrec : mem -> nat -> Z -> slice -> loc -> hres unit.
Variable rec : nat -> Z -> bytes -> val -> dres unit.
Hypothesis Hrec : forall h A W x v L b id depth, pre h A W x v L b [] ->
  sim h A W L [] (hrec h id depth b L) (rec id depth (rd h b) v) (fun _ _ _ T' => T' = []).

Lemma value_sim : forall h (A : nat -> Prop) vo y0 b f vt depth v0, objs h vo = OCells [y0] -> vo < next h ->
  (forall o, A o -> o < next h /\ o <> vo) -> s_arr b < next h /\ s_arr b <> vo -> valid_in h b ->
  elem_ok (f_vtag f) vt = true ->
  (forall id, vt = TStruct id -> y0 = embed (sd_zero (E id)) /\ v0 = sd_zero (E id)) ->
  match HDecodeMapValue E hrec h f vt depth b (cell vo), DecodeMapValue E rec f vt depth (rd h b) v0 with
  | HOk h' _, DOk v' _ => exists A' y, side h A vo h' A' /\ objs h' vo = OCells [y] /\ reads h' A' y v'
  | HErr h' e, DErr _ e' => e = e' /\ exists A', side h A vo h' A'
  | HPanic, DPanic => True
  | HFuel, DFuel => True
  | _, _ => False
  end.
Proof.
  intros h A vo y0 b f vt depth v0 HO HV HA HB V EO HZ. unfold HDecodeMapValue, DecodeMapValue.
  assert (SR : side h A vo h A) by now apply side_refl.
  destruct (ConsumeKVTag (rd h b)) as [[num typ]|]; [|eauto].
  destruct num as [|[p|[p|p|]|]]; eauto.
  destruct (match vt with TPtr t => Some t | _ => None end) as [t'|] eqn:Ept.
  - (* a pointer to a message *)
    destruct vt as [k| | |id|t0|t0|k' v'|alts|]; try discriminate Ept. injection Ept as ->.
    destruct t' as [k| | |id|t0|t0|k' v'|alts|]; try discriminate EO.
    unfold elem_ok in EO. cbn [hmallocIfPointer mallocIfPointer]. rewrite halloc_eq.
    set (h1 := hstore (fst (halloc h (OCells [hfresh E (TStruct id)]))) (cell vo) (MPtr (Some (cell (next h))))).
    set (x0 := hfresh E (TStruct id)) in *. set (f0 := fresh E (TStruct id)).
    assert (F1 : forall o, o < next h -> o <> vo -> objs h1 o = objs h o).
    { intros o Lo D. unfold h1. rewrite hstore_other by exact D. now apply halloc_old. }
    assert (V1 : valid_in h1 b) by (unfold valid_in, bytes_of in *; rewrite F1; tauto).
    assert (R1 : rd h1 b = rd h b) by (apply rd_ext; right; apply F1; tauto).
    assert (S1 : side h A vo h1 A).
    { constructor; [unfold h1; rewrite hstore_next, halloc_next; lia|exact F1|now intros o Ho|].
      intros o Ho. destruct (HA _ Ho). unfold h1. rewrite hstore_next, halloc_next. split; [now left|lia]. }
    assert (C1 : objs h1 (next h) = OCells [x0]).
    { unfold h1. rewrite hstore_other by (cbn; lia). apply halloc_new. }
    assert (Cv : objs h1 vo = OCells [MPtr (Some (cell (next h)))]).
    { unfold h1. apply (hstore_cell _ _ y0). rewrite halloc_old by exact HV. exact HO. }
    pose proof (hslice_from_spec h1 b 1 V1) as SF. rewrite R1 in SF.
    destruct (hslice_from b 1) as [b1| | |], (slice_from (rd h b) 1) as [r1| | |]; cbn [hbind dbind]; try contradiction; eauto.
    destruct SF as (Ea & Vb1 & <-). rewrite dec_scalar_num.
    pose proof (scalar_num_bytes (TStruct id) typ (rd h1 b1)) as SB.
    destruct (f_vtag f); try discriminate EO.
    destruct (scalar_num TagBytes (TStruct id) typ (rd h1 b1)) as [[[o n]| | |]|]; try contradiction; cbn [hbind dbind]; eauto.
    destruct (typ =? WBytes)%N; [|eauto].
    pose proof (HConsumeBytes_spec h1 b1 Vb1) as CB.
    destruct (HConsumeBytes h1 b1) as [[fb n]| | |], (ConsumeBytes (rd h1 b1)) as [[bb n']| | |]; cbn [hbind dbind]; try contradiction; auto;
      [|subst; eauto].
    destruct CB as (-> & Eb & Vb & <-).
    assert (Pc : pre h1 A [] x0 f0 (cell (next h)) fb []).
    { constructor; cbn [cell l_obj].
      - now apply fresh_owns.
      - now apply hload_cell.
      - constructor.
      - intros o [].
      - intros o Ho. destruct (HA _ Ho). destruct S1. split; [lia|lia].
      - unfold h1. rewrite hstore_next, halloc_next. rewrite Eb, Ea. lia.
      - split; [|exact Vb]. rewrite Eb, Ea. unfold h1. rewrite hstore_next, halloc_next. lia.
      - intros o []. }
    pose proof (Hrec _ _ _ _ _ _ _ id (depth - 1)%Z Pc) as R.
    unfold sim in R. destruct (hrec h1 id (depth - 1)%Z fb (cell (next h))) as [h' a|h' e| |],
      (rec id (depth - 1)%Z (rd h1 fb) f0) as [v' c|v' e'| |]; cbn [dmap]; try contradiction; auto.
    + destruct R as (x' & A' & W' & T' & -> & Q).
      pose proof (pre_load _ _ _ _ _ _ _ _ Pc) as Lc.
      destruct Q as [q1 q2 q3 q4 q5 q6 q7 q8 q9]. cbn [cell l_obj] in *.
      assert (N1 : next h1 = S (next h)) by (unfold h1; now rewrite hstore_next, halloc_next).
      exists (fun o => A' o \/ o = next h \/ In o W'), (MPtr (Some (cell (next h)))).
      split; [|split].
      * constructor.
        -- lia.
        -- intros o Lo D. rewrite q4; [now apply F1|lia|lia|intro Z; exact Z|intro Z; exact Z].
        -- intros o Ho. left. auto.
        -- intros o [Ho|[->|Ho]].
           ++ destruct (q6 _ Ho) as ([K|[[]|K]] & K2). { auto. } split; [right; lia|exact K2].
           ++ split; [right; lia|lia].
           ++ destruct (q8 _ Ho) as ([[]|K] & K2 & _). split; [right; lia|exact K2].
      * rewrite q4; [exact Cv|lia|lia|intro Z; exact Z|intro Z; exact Z].
      * apply reads_ptr with (x := x'); [cbn; tauto| |].
        -- rewrite (hload_ext (hstore h1 (cell (next h)) x') h'); [|exact q2]. now apply hload_hstore.
        -- eapply owns_reads; [|exact q1|]; intros o Ho; cbn; tauto.
    + destruct R as (-> & x' & A' & W' & Q). split; [reflexivity|].
      destruct Q as [q1 q2 q3 q4 q5 q6 q7 q8 q9]. cbn [cell l_obj] in *.
      assert (N1 : next h1 = S (next h)) by (unfold h1; now rewrite hstore_next, halloc_next).
      exists A'. constructor; [lia| |exact q5|].
      -- intros o Lo D. rewrite q4; [now apply F1|lia|lia|intro Z; exact Z|intro Z; exact Z].
      -- intros o Ho. destruct (q6 _ Ho) as ([K|[[]|K]] & K2). { auto. } split; [right; lia|exact K2].
  - (* a value *)
    assert (Em : forall L, hmallocIfPointer E h vt L = (h, vt, L)) by (intro L; destruct vt; try reflexivity; discriminate Ept).
    assert (Et : mallocIfPointer E vt v0 = (vt, v0, fun x => x)) by (destruct vt; try reflexivity; discriminate Ept).
    rewrite Em, Et. clear Em Et.
    pose proof (hslice_from_spec h b 1 V) as SF.
    destruct (hslice_from b 1) as [b1| | |], (slice_from (rd h b) 1) as [r1| | |]; cbn [hbind dbind]; try contradiction; eauto.
    destruct SF as (Ea & Vb1 & <-). rewrite dec_scalar_num.
    destruct (scalar_num (f_vtag f) vt typ (rd h b1)) as [[[o n]| | |]|] eqn:Es; cbn [hbind dbind]; eauto.
    + assert (VO : value_ok (f_vtag f) vt = true) by (destruct vt; try exact EO; discriminate Ept).
      destruct vt as [k| | |id|t0|t0|k' v'|alts|]; try discriminate VO; cbn [value_ok] in VO;
        try (destruct (f_vtag f); try discriminate VO; pose proof (scalar_num_bytes TString typ (rd h b1)) as SB1;
             pose proof (scalar_num_bytes TBytes typ (rd h b1)) as SB2;
             pose proof (scalar_num_bytes (TStruct id) typ (rd h b1)) as SB3; rewrite ?Es in *; contradiction).
      * destruct (scalar_num_stores _ _ _ _ _ _ VO Es) as [m ->]. cbn [hput].
        exists (plus A h h), (MNum m). split; [|split].
        -- apply (side_store h A vo); auto. apply allocs_refl.
        -- now apply (hstore_cell _ _ y0).
        -- constructor.
      * destruct (f_vtag f); try discriminate VO. pose proof (scalar_num_bytes TString typ (rd h b1)) as SB. rewrite Es in SB. contradiction.
      * destruct (f_vtag f); try discriminate VO. pose proof (scalar_num_bytes TBytes typ (rd h b1)) as SB. rewrite Es in SB. contradiction.
    + destruct (typ =? WBytes)%N; [|eauto].
      pose proof (HConsumeBytes_spec h b1 Vb1) as CB.
      destruct (HConsumeBytes h b1) as [[fb n]| | |], (ConsumeBytes (rd h b1)) as [[bb n']| | |]; cbn [hbind dbind]; try contradiction; auto;
        [|subst; eauto].
      destruct CB as (-> & Eb & Vb & <-).
      destruct vt as [k| | |id|t0|t0|k' v'|alts|]; eauto.
      * destruct (hcopy h fb) as [h1 s] eqn:Ec.
        destruct (store_copy h A vo y0 HO HV HA fb (MStr s) (VStr (rd h fb)) Vb) as (K1 & K2 & K3).
        -- rewrite Ec. cbn [snd]. intros A' h' I1 <-. now constructor.
        -- rewrite Ec in *. cbn [fst snd] in *. eauto.
      * destruct (hcopy h fb) as [h1 s] eqn:Ec.
        destruct (store_copy h A vo y0 HO HV HA fb (MBytes (Some s)) (VBytes (Some (rd h fb))) Vb) as (K1 & K2 & K3).
        -- rewrite Ec. cbn [snd]. intros A' h' I1 <-. now constructor.
        -- rewrite Ec in *. cbn [fst snd] in *. eauto.
      * destruct (HZ id eq_refl) as [-> ->].
        assert (Pc : pre h A [] (embed (sd_zero (E id))) (sd_zero (E id)) (cell vo) fb []).
        { constructor; cbn [cell l_obj].
          - now apply (zero_owns E WF _ (TStruct id)).
          - now apply hload_cell.
          - constructor.
          - intros o [].
          - exact HA.
          - rewrite Eb, Ea. split; [exact HV|]. intro Z. apply (proj2 HB). now symmetry.
          - split; [|exact Vb]. rewrite Eb, Ea. tauto.
          - intros o []. }
        pose proof (Hrec _ _ _ _ _ _ _ id (depth - 1)%Z Pc) as R.
        pose proof (pre_load _ _ _ _ _ _ _ _ Pc) as Lc.
        unfold sim in R. destruct (hrec h id (depth - 1)%Z fb (cell vo)) as [h' a|h' e| |],
          (rec id (depth - 1)%Z (rd h fb) (sd_zero (E id))) as [v' c|v' e'| |]; cbn [dmap]; try contradiction; auto.
        -- destruct R as (x' & A' & W' & T' & -> & [q1 q2 q3 q4 q5 q6 q7 q8 q9]). cbn [cell l_obj] in *.
           exists (fun o => A' o \/ In o W'), x'. split; [|split].
           ++ constructor; [lia| | |].
              ** intros o Lo D. apply q4; [exact Lo|exact D|intro Z; exact Z|intro Z; exact Z].
              ** intros o Ho. left. auto.
              ** intros o [Ho|Ho]; [destruct (q6 _ Ho) as ([K|[[]|K]] & K2); auto|].
                 destruct (q8 _ Ho) as ([[]|K] & K2 & _). auto.
           ++ rewrite q2. eapply hstore_cell. exact HO.
           ++ eapply owns_reads; [|exact q1|]; intros o Ho; cbn; tauto.
        -- destruct R as (-> & x' & A' & W' & [q1 q2 q3 q4 q5 q6 q7 q8 q9]). split; [reflexivity|]. cbn [cell l_obj] in *.
           exists A'. constructor; [lia| |exact q5|].
           ++ intros o Lo D. apply q4; [exact Lo|exact D|intro Z; exact Z|intro Z; exact Z].
           ++ intros o Ho. destruct (q6 _ Ho) as ([K|[[]|K]] & K2); auto.
Qed.

Lemma pair_sim : forall h (A : nat -> Prop) W x v L b T f kt vt depth tmp tt0, pre h A W x v L b T -> held h (Some tmp) T ->
  key_ok (f_ktag f) kt = true -> elem_ok (f_vtag f) vt = true ->
  sim h A W L T (HDecodeMapPair E hrec h f kt vt depth b L tmp) (DecodeMapPair E rec f kt vt depth (rd h b) v tt0)
    (fun h' _ _ T' => held h' (Some tmp) T').
Proof.
  intros h A W x v L b T f kt vt depth [ko vo] tt0 P HH KO EO. destruct HH as (-> & Dkv & [kx Hk] & [vx Hv]).
  unfold HDecodeMapPair, DecodeMapPair.
  set (h0 := htmp_reset E h vt (ko, vo)).
  pose proof (p_T _ _ _ _ _ _ _ _ P ko) as PTk. pose proof (p_T _ _ _ _ _ _ _ _ P vo) as PTv.
  destruct PTk as (Tk1 & Tk2 & Tk3 & Tk4 & Tk5); [cbn; auto|]. destruct PTv as (Tv1 & Tv2 & Tv3 & Tv4 & Tv5); [cbn; auto|].
  assert (N0 : next h0 = next h) by (unfold h0, htmp_reset; destruct vt; try reflexivity; apply hstore_next).
  assert (F0 : forall o, o <> vo -> objs h0 o = objs h o).
  { intros o D. unfold h0, htmp_reset. destruct vt; try reflexivity. now apply hstore_other. }
  assert (V0 : exists y0, objs h0 vo = OCells [y0] /\ (forall id, vt = TStruct id -> y0 = embed (sd_zero (E id)) /\ snd (tmp_reset E vt tt0) = sd_zero (E id))).
  { unfold h0, htmp_reset. destruct vt as [k| | |id|t0|t0|k' v'|alts|]; try (exists vx; split; [exact Hv|discriminate]).
    exists (embed (sd_zero (E id))). split; [apply (hstore_cell _ _ vx); exact Hv|]. intros id' [= <-]. auto. }
  destruct V0 as (y0 & V0 & Z0).
  assert (Q0 : post h A W L [ko; vo] h0 x v A W [ko; vo]).
  { eapply post_side; [exact P|lia| | | |].
    - intros o Lo To. apply F0. intros ->. apply To. cbn; auto.
    - now intros o Ho.
    - intros o Ho. split; [now left|]. rewrite N0. now apply (p_A _ _ _ _ _ _ _ _ P).
    - intros o [<-|[<-|[]]]; cbn; rewrite N0; auto. }
  pose proof (p_b _ _ _ _ _ _ _ _ P) as [Hb Vb].
  assert (P0 : pre h0 A W x v L b [ko; vo]) by (eapply pre_post; eauto).
  rewrite (p_load _ _ _ _ _ _ _ _ P0).
  pose proof (owns_kind _ _ _ _ _ (p_owns _ _ _ _ _ _ _ _ P)) as K.
  destruct x as [| | | | | |m| |]; destruct v as [| | | | | |w| |]; try discriminate K; try exact Logic.I.
  assert (M1 : exists h1 o mm, (match m with Some _ => h0 | None => let '(h, o) := halloc h0 (OMap []) in hstore h L (MMap (Some o)) end) = h1 /\
    match w with Some m => m | None => [] end = mm /\
    (forall t, In t [ko; vo] -> objs h1 t = objs h0 t) /\ next h0 <= next h1 /\ objs h1 (s_arr b) = objs h0 (s_arr b) /\
    post h0 A W L [ko; vo] h1 (MMap (Some o)) (VMap (Some mm)) A [o] [ko; vo]).
  { pose proof (p_owns _ _ _ _ _ _ _ _ P0) as O.
    apply owns_map_inv in O as [(-> & -> & ->)|(o & ents & mm & -> & -> & -> & Oo & Re)].
    - pose proof (post_mapmake _ _ _ _ _ _ P0) as Q1. rewrite halloc_eq.
      eexists. exists (next h0), []. split; [reflexivity|]. split; [reflexivity|]. split; [|split; [|split; [|exact Q1]]].
      + intros t Ht. assert (Dt : t <> l_obj L /\ t < next h) by (destruct Ht as [<-|[<-|[]]]; auto).
        rewrite hstore_other by tauto. apply halloc_old. lia.
      + rewrite hstore_next, halloc_next. lia.
      + exact (post_b _ _ _ _ _ _ _ _ _ _ _ _ _ _ P0 Q1).
    - exists h0, o, mm. do 5 (split; [auto|]). apply (post_refl _ _ _ _ _ _ b). exact P0. }
  destruct M1 as (h1 & o & mm & -> & -> & FT1 & N1 & B1 & Q1).
  assert (P1 : pre h1 A [o] (MMap (Some o)) (VMap (Some mm)) L b [ko; vo]).
  { eapply pre_post; [exact P0|exact Q1|reflexivity|]. apply (p_b _ _ _ _ _ _ _ _ P0). }
  assert (Q01 : post h A W L [ko; vo] h1 (MMap (Some o)) (VMap (Some mm)) A [o] [ko; vo]).
  { eapply post_trans; [exact P|exact Q0|exact Q1]. }
  assert (Ho : forall t, In t [ko; vo] -> t <> o).
  { intros t Ht ->. destruct (p_T _ _ _ _ _ _ _ _ P1 o Ht) as (_ & _ & Z & _). apply Z. now left. }
  assert (R1 : rd h1 b = rd h b).
  { apply rd_ext. right. rewrite B1. apply F0. auto. }
  pose proof (p_A _ _ _ _ _ _ _ _ P1) as PA1. pose proof (p_b _ _ _ _ _ _ _ _ P1) as [Hb1 Vb1].
  assert (Ek1 : objs h1 ko = OCells [kx]) by (rewrite FT1 by (cbn; auto); rewrite F0 by exact Dkv; exact Hk).
  pose proof (key_sim h1 A ko kx b f kt (fst (tmp_reset E vt tt0)) Ek1) as KS. rewrite R1 in KS.
  specialize (KS ltac:(lia)). specialize (KS ltac:(intros z Hz; split; [now apply PA1|intros ->; auto])).
  specialize (KS ltac:(split; [lia|auto])). specialize (KS Vb1 KO).
  destruct (HDecodeMapKey h1 f kt b (cell (fst (ko, vo)))) as [h2 n|h2 e| |] eqn:EHK;
    destruct (DecodeMapKey f kt (rd h b) (fst (tmp_reset E vt tt0))) as [[kv n']| e' | |]; cbn [fst] in EHK; rewrite EHK in KS; try contradiction; try exact Logic.I; cbn [hseq dbind].
  2:{ destruct KS as (-> & ->). split; [reflexivity|]. exists (MMap (Some o)), A, [o]. eapply post_noT, Q01. }
  destruct KS as (-> & A2 & ky & S2 & K2 & RK2).
  assert (Q2 : post h1 A [o] L [ko; vo] h2 (MMap (Some o)) (VMap (Some mm)) A2 [o] [ko; vo]).
  { destruct S2 as [n2 f2 aa2 a2]. eapply post_side; [exact P1|exact n2| |exact aa2|exact a2|].
    - intros z Lz Tz. apply f2; [exact Lz|]. intros ->. apply Tz. cbn; auto.
    - intros z Hz. split; [now left|]. assert (Lz : z < next h1 /\ ~ A z) by (destruct Hz as [<-|[<-|[]]]; split; auto; lia).
      split; [lia|]. intro Z. destruct (a2 _ Z) as ([Z1|Z1] & _); [tauto|lia]. }
  assert (P2 : pre h2 A2 [o] (MMap (Some o)) (VMap (Some mm)) L b [ko; vo]) by (eapply pre_post; eauto).
  assert (Q02 : post h A W L [ko; vo] h2 (MMap (Some o)) (VMap (Some mm)) A2 [o] [ko; vo]) by (eapply post_trans; [exact P|exact Q01|exact Q2]).
  assert (B2 : objs h2 (s_arr b) = objs h1 (s_arr b)) by (exact (post_b _ _ _ _ _ _ _ _ _ _ _ _ _ _ P1 Q2)).
  assert (R2 : rd h2 b = rd h b) by (rewrite <- R1; apply rd_ext; now right).
  pose proof (p_A _ _ _ _ _ _ _ _ P2) as PA2. pose proof (p_b _ _ _ _ _ _ _ _ P2) as [Hb2 Vb2].
  pose proof (hslice_from_spec h2 b n' Vb2) as SF. rewrite R2 in SF.
  destruct (hslice_from b n') as [b1| | |], (slice_from (rd h b) n') as [r1| | |]; cbn [hbind dbind]; try contradiction; try exact Logic.I.
  destruct SF as (Ea & Vc & <-).
  assert (A2v : forall z, A2 z -> z < next h2 /\ z <> vo).
  { intros z Hz. destruct (d_A _ _ _ _ _ S2 _ Hz) as ([Z|Z] & Z2); (split; [exact Z2|]); intros ->; [auto|].
    lia. }
  assert (Ev2 : objs h2 vo = OCells [y0]).
  { rewrite (d_frame _ _ _ _ _ S2); [|lia|now apply not_eq_sym]. rewrite FT1 by (cbn; auto). exact V0. }
  pose proof (value_sim h2 A2 vo y0 b1 f vt depth (snd (tmp_reset E vt tt0)) Ev2) as VS.
  specialize (VS ltac:(pose proof (d_next _ _ _ _ _ S2); lia) A2v).
  specialize (VS ltac:(rewrite Ea; split; [lia|auto]) Vc EO Z0).
  cbn [snd].
  destruct (HDecodeMapValue E hrec h2 f vt depth b1 (cell vo)) as [h3 a|h3 e| |];
    destruct (DecodeMapValue E rec f vt depth (rd h2 b1) (snd (tmp_reset E vt tt0))) as [v' c|v' e'| |]; cbn [hseq]; try contradiction; try exact Logic.I.
  2:{ destruct VS as (-> & A3 & S3). split; [reflexivity|]. exists (MMap (Some o)), A3, [o]. eapply post_noT with (T' := []).
      eapply post_trans; [exact P|exact Q02|]. destruct S3 as [n3 f3 aa3 a3]. eapply post_side; [exact P2|exact n3| |exact aa3|exact a3|intros z []].
      intros z Lz Tz. apply f3; [exact Lz|]. intros ->. apply Tz. cbn; auto. }
  destruct VS as (A3 & y & S3 & Y3 & RY3).
  assert (Q3 : post h2 A2 [o] L [ko; vo] h3 (MMap (Some o)) (VMap (Some mm)) A3 [o] [ko; vo]).
  { destruct S3 as [n3 f3 aa3 a3]. eapply post_side; [exact P2|exact n3| |exact aa3|exact a3|].
    - intros z Lz Tz. apply f3; [exact Lz|]. intros ->. apply Tz. cbn; auto.
    - intros z Hz. split; [now left|]. destruct (p_T _ _ _ _ _ _ _ _ P2 z Hz) as (Z1 & _ & _ & Z4 & _).
      split; [lia|]. intro Z. destruct (a3 _ Z) as ([Z5|Z5] & _); [tauto|lia]. }
  assert (P3 : pre h3 A3 [o] (MMap (Some o)) (VMap (Some mm)) L b [ko; vo]) by (eapply pre_post; eauto).
  rewrite (p_load _ _ _ _ _ _ _ _ P3).
  assert (K3 : objs h3 ko = OCells [ky]).
  { rewrite (d_frame _ _ _ _ _ S3); [exact K2| |exact Dkv]. pose proof (d_next _ _ _ _ _ S2). lia. }
  cbn [fst]. rewrite (hload_cell _ _ _ K3), (hload_cell _ _ _ Y3).
  assert (RK3 : reads h3 A3 ky kv).
  { apply (reads_frame h2 A2 h3 A3); [|exact (d_AA _ _ _ _ _ S3)|exact RK2].
    intros z Hz. destruct (A2v _ Hz). now apply (d_frame _ _ _ _ _ S3). }
  pose proof (post_mapset _ _ _ _ _ _ _ _ _ _ _ _ P3 RK3 RY3) as Q4.
  exists (MMap (Some o)), A3, [o], [ko; vo]. split.
  - split; [reflexivity|]. split; [exact Dkv|].
    split; [exists ky|exists y]; (rewrite set_obj_other by (apply Ho; cbn; auto)); assumption.
  - eapply post_trans; [exact P|exact Q02|]. eapply post_trans; [exact P2|exact Q3|exact Q4].
Qed.
End Rec.
End Sim.
