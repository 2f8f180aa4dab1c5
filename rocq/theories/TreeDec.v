(** The decoder on memory (HDecoder.v) keeps messages trees. *)
From Coq Require Import Lia.
From Verif Require Import Base Wire Coder MapTables Value WireVal Desc Encoder Decoder MsgSpec WireConsume ValFacts DescProofs
  HMem HDecoder OwnSpec OwnMem OwnPost OwnCell TreeSpec TreeMem TreePost.
Open Scope nat_scope.

Definition keeps {X} (h : mem) (F : list nat) (L : loc) (T : list nat) (r : hres X) (R : mem -> X -> list nat -> Prop) : Prop :=
  match r with
  | HOk h' a => exists x' F' T', R h' a T' /\ tpost h F L T h' x' F' T'
  | HErr h' e => exists x' F', tpost h F L T h' x' F' []
  | HPanic | HFuel => True
  end.
Lemma keeps_err : forall {X} h F x L T (R : mem -> X -> list nat -> Prop) e, tpre h F x L T -> keeps h F L T (HErr h e) R.
Proof. intros X h F x L T R e P. exists x, F. eapply tpost_noT, tpost_refl, P. Qed.
Lemma keeps_bind : forall {X A} h F x L T (r : res A) (k : A -> hres X) R, tpre h F x L T ->
  (forall a, r = Ok a -> keeps h F L T (k a) R) -> keeps h F L T (hbind h r k) R.
Proof. intros X A h F x L T [a|e| |] k R P H; cbn [hbind]; auto; try exact Logic.I. eapply keeps_err, P. Qed.

Lemma array_fresh : forall h fb n, (n = s_len (snd (hcopy h fb)) \/ n = s_cap (snd (hcopy h fb))) ->
  let G := array_of n (snd (hcopy h fb)) in NoDup G /\ forall o, In o G -> next h <= o < next (fst (hcopy h fb)).
Proof.
  intros h fb n Hn. unfold hcopy in *. destruct (Nat.eqb_spec (s_len fb) 0) as [E|E].
  - cbn in Hn. assert (n = 0) as -> by tauto. cbn. split; [constructor|intros o []].
  - rewrite halloc_eq in *. cbn [fst snd s_len s_cap] in *. assert (n = s_len fb) as -> by tauto.
    unfold array_of. destruct (Nat.eqb_spec (s_len fb) 0); [contradiction|]. cbn zeta. split.
    + constructor; [intro Z; exact Z|constructor].
    + intros o [<-|[]]. cbn [s_arr]. rewrite halloc_next. lia.
Qed.
Lemma hcopy_allocs : forall h fb, allocs h (fst (hcopy h fb)) /\ s_len (snd (hcopy h fb)) <= s_cap (snd (hcopy h fb)).
Proof.
  intros h fb. unfold hcopy. destruct (Nat.eqb_spec (s_len fb) 0); [split; [apply allocs_refl|cbn; lia]|].
  rewrite halloc_eq. cbn [fst snd s_len s_cap]. split; [apply allocs_halloc|lia].
Qed.
(** A copied string or []byte: new memory, exactly as large as needed *)
Lemma copy_parts : forall h fb h', exists Gs Gb,
  parts h' (MStr (snd (hcopy h fb))) Gs /\ parts h' (MBytes (Some (snd (hcopy h fb)))) Gb /\
  (NoDup Gs /\ forall o, In o Gs -> next h <= o < next (fst (hcopy h fb))) /\
  (NoDup Gb /\ forall o, In o Gb -> next h <= o < next (fst (hcopy h fb))).
Proof.
  intros h fb h'. eexists _, _. split; [constructor|]. split; [constructor|].
  - cbn. apply hcopy_allocs.
  - split; apply array_fresh; auto.
Qed.

Section Zero.
Variable E : env.
Hypothesis WF : wf_env E.
Lemma zero_parts : forall v t, zero_of E t = v -> forall h, parts h (embed v) [].
Proof.
  assert (St : forall id w, sd_zero (E id) = w -> w = VStruct (map (zero_of E) (sd_slots (E id))) None).
  { intros id w <-. apply (wf_zero _ _ (WF id)). }
  intro v. induction v as [|n|s|s|p IH|e sp IH1 IH2|m IH|l u IH|i IH] using val_ind'; intros t Ht h; cbn [embed];
    destruct t as [k| | |id|t'|t'|k' v'|alts|]; cbn [zero_of] in Ht; try discriminate Ht; try (apply St in Ht; discriminate Ht);
    try (constructor; fail).
  - apply (parts_bytes h None). exact Logic.I.
  - now apply parts_noslice.
  - apply St in Ht. injection Ht as -> ->. change (@nil nat) with (@nil nat ++ unknown_parts None). apply parts_struct; [|exact Logic.I].
    induction (sd_slots (E id)) as [|t ts IHt]; cbn [map]; [constructor|]. cbn [map] in IH. inversion IH; subst.
    change (@nil nat) with (@nil nat ++ @nil nat). constructor; [|now apply IHt]. now apply (H1 t).
Qed.
Lemma fresh_parts : forall t h, parts h (hfresh E t) [].
Proof. intros t h. unfold hfresh. destruct (noscan t); [constructor|]. now apply (zero_parts _ t). Qed.
Lemma repeat_parts : forall h t n, parts_all h (repeat (hfresh E t) n) [].
Proof.
  intros h t n. induction n as [|n IH]; cbn; [constructor|]. change (@nil nat) with (@nil nat ++ []).
  constructor; [apply fresh_parts|exact IH].
Qed.
End Zero.

Section Keep.
Variable E : env.
Hypothesis WF : wf_env E.
Variable capf : nat -> nat.

(** Only [vo] and new memory have changed; [vo] holds a tree of new memory *)
Record tside (h : mem) (vo : nat) (h' : mem) : Prop := {
  e_next : next h <= next h';
  e_frame : forall o, o < next h -> o <> vo -> objs h' o = objs h o
}.
Definition new_tree (h : mem) (vo : nat) (h' : mem) : Prop :=
  tside h vo h' /\ exists y F, objs h' vo = OCells [y] /\ parts h' y F /\ NoDup F /\
    forall o, In o F -> next h <= o < next h'.

Lemma tside_refl : forall h vo, tside h vo h.
Proof. constructor; auto. Qed.
Lemma new_store : forall h vo y0 h1 y F, objs h vo = OCells [y0] -> vo < next h -> allocs h h1 ->
  (forall h', parts h' y F) -> NoDup F -> (forall o, In o F -> next h <= o < next h1) ->
  new_tree h vo (hstore h1 (cell vo) y).
Proof.
  intros h vo y0 h1 y F HO HV [N Fr] PY ND HF. split.
  - constructor; rewrite ?hstore_next; [exact N|]. intros o Lo D. rewrite hstore_other by exact D. auto.
  - exists y, F. split; [|split; [apply PY|split; [exact ND|rewrite hstore_next; exact HF]]].
    apply (hstore_cell _ _ y0). now rewrite Fr.
Qed.

Lemma key_keeps : forall h ko y0 b f kt, objs h ko = OCells [y0] -> ko < next h -> key_ok (f_ktag f) kt = true ->
  match HDecodeMapKey h f kt b (cell ko) with
  | HOk h' _ => new_tree h ko h'
  | HErr h' _ => h' = h
  | _ => True
  end.
Proof.
  intros h ko y0 b f kt HO HV KO. unfold HDecodeMapKey.
  destruct (ConsumeKVTag (rd h b)) as [[num typ]|]; [|auto].
  destruct num as [|[p|p|]]; auto.
  destruct (hslice_from b 1) as [b1| | |]; cbn [hbind]; auto.
  destruct (scalar_num (f_ktag f) kt typ (rd h b1)) as [[[o n]| | |]|] eqn:Es; cbn [hbind]; auto.
  - destruct kt; try discriminate KO.
    + apply andb_true_iff in KO as [KO _]. destruct (scalar_num_stores _ _ _ _ _ _ KO Es) as [m ->]. cbn [hput].
      eapply new_store with (F := []); eauto; [apply allocs_refl|intro; constructor|constructor|intros z []].
    + pose proof (scalar_num_bytes TString typ (rd h b1)) as SB. cbn [key_ok] in KO.
      destruct (f_ktag f); try discriminate KO. rewrite Es in SB. contradiction.
  - destruct (typ =? WBytes)%N; [|auto]. destruct kt; auto.
    destruct (HConsumeBytes h b1) as [[fb n]| | |]; cbn [hbind]; auto.
    destruct (copy_parts h fb h) as (Gs & Gb & K1 & _ & (K2 & K3) & _). pose proof (hcopy_allocs h fb) as [K4 _].
    destruct (hcopy h fb) as [h1 s]. cbn [fst snd] in *. inversion K1; subst.
    eapply new_store; eauto. intro. constructor.
Qed.

Section Rec.
Variable hrec : mem -> nat -> Z -> slice -> loc -> hres unit.
Hypothesis Hrec : forall h F x L b id depth, tpre h F x L [] ->
  keeps h F L [] (hrec h id depth b L) (fun _ _ T' => T' = []).

Lemma value_keeps : forall h vo y0 b f vt depth, objs h vo = OCells [y0] -> vo < next h -> elem_ok (f_vtag f) vt = true ->
  (forall id, vt = TStruct id -> y0 = embed (sd_zero (E id))) ->
  match HDecodeMapValue E hrec h f vt depth b (cell vo) with
  | HOk h' _ => new_tree h vo h'
  | HErr h' _ => tside h vo h'
  | _ => True
  end.
Proof.
  intros h vo y0 b f vt depth HO HV EO HZ. unfold HDecodeMapValue.
  pose proof (tside_refl h vo) as SR.
  destruct (ConsumeKVTag (rd h b)) as [[num typ]|]; [|auto].
  destruct num as [|[p|[p|p|]|]]; auto.
  destruct (match vt with TPtr t => Some t | _ => None end) as [t'|] eqn:Ept.
  - destruct vt as [k| | |id|t0|t0|k' v'|alts|]; try discriminate Ept. injection Ept as ->.
    destruct t' as [k| | |id|t0|t0|k' v'|alts|]; try discriminate EO.
    unfold elem_ok in EO. cbn [hmallocIfPointer]. rewrite halloc_eq.
    set (h1 := hstore (fst (halloc h (OCells [hfresh E (TStruct id)]))) (cell vo) (MPtr (Some (cell (next h))))).
    set (x0 := hfresh E (TStruct id)) in *.
    assert (F1 : forall o, o < next h -> o <> vo -> objs h1 o = objs h o).
    { intros o Lo D. unfold h1. rewrite hstore_other by exact D. now apply halloc_old. }
    assert (N1 : next h1 = S (next h)) by (unfold h1; now rewrite hstore_next, halloc_next).
    assert (S1 : tside h vo h1) by (constructor; [lia|exact F1]).
    assert (C1 : objs h1 (next h) = OCells [x0]).
    { unfold h1. rewrite hstore_other by (cbn; lia). apply halloc_new. }
    assert (Cv : objs h1 vo = OCells [MPtr (Some (cell (next h)))]).
    { unfold h1. apply (hstore_cell _ _ y0). rewrite halloc_old by exact HV. exact HO. }
    destruct (hslice_from b 1) as [b1| | |]; cbn [hbind]; auto.
    pose proof (scalar_num_bytes (TStruct id) typ (rd h1 b1)) as SB.
    destruct (f_vtag f); try discriminate EO.
    destruct (scalar_num TagBytes (TStruct id) typ (rd h1 b1)) as [[[o n]| | |]|]; try contradiction; cbn [hbind]; auto.
    destruct (typ =? WBytes)%N; [|auto].
    destruct (HConsumeBytes h1 b1) as [[fb n]| | |]; cbn [hbind]; auto.
    assert (Pc : tpre h1 [] x0 (cell (next h)) []).
    { constructor; cbn [cell l_obj].
      - now apply fresh_parts.
      - now apply hload_cell.
      - constructor.
      - intros o [].
      - lia.
      - intros o []. }
    pose proof (Hrec _ _ _ _ fb id (depth - 1)%Z Pc) as R. unfold keeps in R.
    assert (SD : forall h' x' F' T', tpost h1 [] (cell (next h)) [] h' x' F' T' -> tside h vo h').
    { intros h' x' F' T' [q1 q2 q3 q4 q5 q6 q7]. constructor; [lia|]. intros o Lo D. cbn [cell l_obj] in *.
      rewrite q4; [now apply F1|lia|lia|intro Z; exact Z|intro Z; exact Z]. }
    destruct (hrec h1 id (depth - 1)%Z fb (cell (next h))) as [h' a|h' e| |]; auto.
    + destruct R as (x' & F' & T' & -> & Q). split; [now apply SD in Q|].
      destruct Q as [q1 q2 q3 q4 q5 q6 q7]. cbn [cell l_obj] in *.
      exists (MPtr (Some (cell (next h)))), (next h :: F'). split; [|split; [|split]].
      * rewrite q4; [exact Cv|lia|lia|intro Z; exact Z|intro Z; exact Z].
      * econstructor; [|exact q1]. eapply one_cell; [exact C1|exact q2].
      * constructor; [|exact q5]. intro K. destruct (q6 _ K) as ([[]|K1] & _). lia.
      * intros o [<-|Ho]; [lia|]. destruct (q6 _ Ho) as ([[]|K] & K2). lia.
    + destruct R as (x' & F' & Q). now apply SD in Q.
  - assert (Em : forall L, hmallocIfPointer E h vt L = (h, vt, L)) by (intro L; destruct vt; try reflexivity; discriminate Ept).
    rewrite Em. clear Em.
    destruct (hslice_from b 1) as [b1| | |]; cbn [hbind]; auto.
    destruct (scalar_num (f_vtag f) vt typ (rd h b1)) as [[[o n]| | |]|] eqn:Es; cbn [hbind]; auto.
    + assert (VO : value_ok (f_vtag f) vt = true) by (destruct vt; try exact EO; discriminate Ept).
      destruct vt as [k| | |id|t0|t0|k' v'|alts|]; try discriminate VO; cbn [value_ok] in VO.
      * destruct (scalar_num_stores _ _ _ _ _ _ VO Es) as [m ->]. cbn [hput].
        eapply new_store with (F := []); eauto; [apply allocs_refl|intro; constructor|constructor|intros z []].
      * destruct (f_vtag f); try discriminate VO. pose proof (scalar_num_bytes TString typ (rd h b1)) as SB. rewrite Es in SB. contradiction.
      * destruct (f_vtag f); try discriminate VO. pose proof (scalar_num_bytes TBytes typ (rd h b1)) as SB. rewrite Es in SB. contradiction.
      * destruct (f_vtag f); try discriminate VO. pose proof (scalar_num_bytes (TStruct id) typ (rd h b1)) as SB. rewrite Es in SB. contradiction.
    + destruct (typ =? WBytes)%N; [|auto].
      destruct (HConsumeBytes h b1) as [[fb n]| | |]; cbn [hbind]; auto.
      destruct (copy_parts h fb h) as (Gs & Gb & K1 & K1' & (K2 & K3) & (K2' & K3')). pose proof (hcopy_allocs h fb) as [K4 K5].
      destruct vt as [k| | |id|t0|t0|k' v'|alts|]; auto.
      * destruct (hcopy h fb) as [h1 s]. cbn [fst snd] in *. inversion K1; subst.
        eapply new_store with (F := array_of (s_len s) s); eauto. intro. constructor.
      * destruct (hcopy h fb) as [h1 s]. cbn [fst snd] in *. inversion K1'; subst.
        eapply new_store with (F := unknown_parts (Some s)); eauto. intro. now constructor.
      * pose proof (HZ id eq_refl) as ->.
        assert (Pc : tpre h [] (embed (sd_zero (E id))) (cell vo) []).
        { constructor; cbn [cell l_obj].
          - now apply (zero_parts E WF _ (TStruct id)).
          - now apply hload_cell.
          - constructor.
          - intros o [].
          - exact HV.
          - intros o []. }
        pose proof (Hrec _ _ _ _ fb id (depth - 1)%Z Pc) as R. unfold keeps in R.
        assert (SD : forall h' x' F' T', tpost h [] (cell vo) [] h' x' F' T' -> tside h vo h').
        { intros h' x' F' T' [q1 q2 q3 q4 q5 q6 q7]. constructor; [lia|]. intros o Lo D. cbn [cell l_obj] in *.
          rewrite q4; [reflexivity|lia|lia|intro Z; exact Z|intro Z; exact Z]. }
        destruct (hrec h id (depth - 1)%Z fb (cell vo)) as [h' a|h' e| |]; auto.
        -- destruct R as (x' & F' & T' & -> & Q). split; [now apply SD in Q|].
           destruct Q as [q1 q2 q3 q4 q5 q6 q7]. cbn [cell l_obj] in *.
           exists x', F'. split; [|split; [exact q1|split; [exact q5|]]].
           ++ eapply one_cell; [exact HO|exact q2].
           ++ intros o Ho. destruct (q6 _ Ho) as ([[]|K] & K2''). lia.
        -- destruct R as (x' & F' & Q). now apply SD in Q.
Qed.

Lemma pair_keeps : forall h F x L b T f kt vt depth tmp, tpre h F x L T -> held h (Some tmp) T ->
  key_ok (f_ktag f) kt = true -> elem_ok (f_vtag f) vt = true ->
  keeps h F L T (HDecodeMapPair E hrec h f kt vt depth b L tmp) (fun h' _ T' => held h' (Some tmp) T').
Proof.
  intros h F x L b T f kt vt depth [ko vo] P HH KO EO. destruct HH as (-> & Dkv & [kx Hk] & [vx Hv]).
  unfold HDecodeMapPair. set (h0 := htmp_reset E h vt (ko, vo)).
  destruct (t_T _ _ _ _ _ P ko) as (Tk1 & Tk2 & Tk3); [cbn; auto|].
  destruct (t_T _ _ _ _ _ P vo) as (Tv1 & Tv2 & Tv3); [cbn; auto|].
  assert (N0 : next h0 = next h) by (unfold h0, htmp_reset; destruct vt; try reflexivity; apply hstore_next).
  assert (F0 : forall o, o <> vo -> objs h0 o = objs h o).
  { intros o D. unfold h0, htmp_reset. destruct vt; try reflexivity. now apply hstore_other. }
  assert (V0 : exists y0, objs h0 vo = OCells [y0] /\ (forall id, vt = TStruct id -> y0 = embed (sd_zero (E id)))).
  { unfold h0, htmp_reset. destruct vt as [k| | |id|t0|t0|k' v'|alts|]; try (exists vx; split; [exact Hv|discriminate]).
    exists (embed (sd_zero (E id))). split; [apply (hstore_cell _ _ vx); exact Hv|]. intros id' [= <-]. auto. }
  destruct V0 as (y0 & V0 & Z0).
  assert (Q0 : tpost h F L [ko; vo] h0 x F [ko; vo]).
  { eapply tpost_side; [exact P|lia| |].
    - intros o Lo To. apply F0. intros ->. apply To. cbn; auto.
    - intros o [<-|[<-|[]]]; cbn; rewrite N0; auto. }
  pose proof (tpre_post _ _ _ _ _ _ _ _ _ P Q0) as P0.
  rewrite (t_load _ _ _ _ _ P0).
  destruct x as [| | | | | |m| |]; try exact Logic.I.
  assert (M1 : exists h1 o F1, (match m with Some _ => h0 | None => let '(h, o) := halloc h0 (OMap []) in hstore h L (MMap (Some o)) end) = h1 /\
    (forall t, In t [ko; vo] -> objs h1 t = objs h0 t) /\ next h0 <= next h1 /\
    tpost h0 F L [ko; vo] h1 (MMap (Some o)) F1 [ko; vo]).
  { destruct m as [o|].
    - exists h0, o, F. do 3 (split; [auto|]). now apply tpost_refl.
    - pose proof (tpost_mapmake _ _ _ _ _ P0) as Q1. rewrite halloc_eq.
      eexists. exists (next h0), [next h0]. split; [reflexivity|]. split; [|split; [|exact Q1]].
      + intros t Ht. assert (Dt : t <> l_obj L /\ t < next h) by (destruct Ht as [<-|[<-|[]]]; auto).
        rewrite hstore_other by tauto. apply halloc_old. lia.
      + rewrite hstore_next, halloc_next. lia. }
  destruct M1 as (h1 & o & F1 & -> & FT1 & N1 & Q1).
  pose proof (tpre_post _ _ _ _ _ _ _ _ _ P0 Q1) as P1.
  assert (Q01 : tpost h F L [ko; vo] h1 (MMap (Some o)) F1 [ko; vo]) by (eapply tpost_trans; [exact P|exact Q0|exact Q1]).
  assert (Ek1 : objs h1 ko = OCells [kx]) by (rewrite FT1 by (cbn; auto); rewrite F0 by exact Dkv; exact Hk).
  pose proof (key_keeps h1 ko kx b f kt Ek1 ltac:(lia) KO) as KS. cbn [fst].
  destruct (HDecodeMapKey h1 f kt b (cell ko)) as [h2 n|h2 e| |]; cbn [hseq]; try exact Logic.I.
  2:{ subst h2. exists (MMap (Some o)), F1. eapply tpost_noT, Q01. }
  destruct KS as ([n2 f2] & ky & Fk & K2 & PK2 & NK & RK).
  assert (Q2 : tpost h1 F1 L [ko; vo] h2 (MMap (Some o)) F1 [ko; vo]).
  { eapply tpost_side; [exact P1|exact n2| |].
    - intros z Lz Tz. apply f2; [exact Lz|]. intros ->. apply Tz. cbn; auto.
    - intros z Hz. split; [now left|]. destruct Hz as [<-|[<-|[]]]; lia. }
  pose proof (tpre_post _ _ _ _ _ _ _ _ _ P1 Q2) as P2.
  assert (Q02 : tpost h F L [ko; vo] h2 (MMap (Some o)) F1 [ko; vo]) by (eapply tpost_trans; [exact P|exact Q01|exact Q2]).
  destruct (hslice_from b n) as [b1| | |]; cbn [hbind]; try exact Logic.I.
  2:{ exists (MMap (Some o)), F1. eapply tpost_noT, Q02. }
  assert (Ev2 : objs h2 vo = OCells [y0]).
  { rewrite f2; [|lia|now apply not_eq_sym]. rewrite FT1 by (cbn; auto). exact V0. }
  pose proof (value_keeps h2 vo y0 b1 f vt depth Ev2 ltac:(lia) EO Z0) as VS. cbn [snd].
  destruct (HDecodeMapValue E hrec h2 f vt depth b1 (cell vo)) as [h3 a|h3 e| |]; cbn [hseq]; try exact Logic.I.
  2:{ destruct VS as [n3 f3]. exists (MMap (Some o)), F1. eapply tpost_noT with (T' := []). eapply tpost_trans; [exact P|exact Q02|].
      eapply tpost_side; [exact P2|exact n3| |intros z []].
      intros z Lz Tz. apply f3; [exact Lz|]. intros ->. apply Tz. cbn; auto. }
  destruct VS as ([n3 f3] & vy & Fv & K3 & PV3 & NV & RV3).
  assert (Q3 : tpost h2 F1 L [ko; vo] h3 (MMap (Some o)) F1 [ko; vo]).
  { eapply tpost_side; [exact P2|exact n3| |].
    - intros z Lz Tz. apply f3; [exact Lz|]. intros ->. apply Tz. cbn; auto.
    - intros z Hz. split; [now left|]. destruct Hz as [<-|[<-|[]]]; lia. }
  pose proof (tpre_post _ _ _ _ _ _ _ _ _ P2 Q3) as P3.
  assert (Q13 : tpost h1 F1 L [ko; vo] h3 (MMap (Some o)) F1 [ko; vo]) by (eapply tpost_trans; [exact P1|exact Q2|exact Q3]).
  rewrite (t_load _ _ _ _ _ P3).
  assert (Ek3 : objs h3 ko = OCells [ky]) by (rewrite f3; [exact K2|lia|exact Dkv]).
  rewrite (hload_cell _ _ _ Ek3), (hload_cell _ _ _ K3).
  assert (PK3 : parts h3 ky Fk).
  { apply (parts_frame h2 h3); [exact PK2|]. intros z Hz. apply f3; [apply RK in Hz; lia|apply RK in Hz; lia]. }
  destruct (tpost_mapset _ _ _ _ _ ky vy Fk Fv P3 PK3 PV3) with (h0 := h1) as [F' Q'].
  - apply nodup_cnt. intro z. rewrite cnt_app. apply nodup_cnt with (o := z) in NK as C1. apply nodup_cnt with (o := z) in NV as C2.
    destruct (Nat.eq_dec (cnt z Fk) 0); [lia|]. destruct (Nat.eq_dec (cnt z Fv) 0); [lia|].
    exfalso. assert (I1 : In z Fk) by (apply in_cnt; lia). assert (I2 : In z Fv) by (apply in_cnt; lia).
    apply RK in I1. apply RV3 in I2. lia.
  - intros z Hz. assert (Bz : next h1 <= z < next h3) by (apply in_app_or in Hz as [Hz|Hz]; [apply RK in Hz; lia|apply RV3 in Hz; lia]).
    split; [|split; [|split]].
    + intro K. apply (t_F _ _ _ _ _ P1) in K. lia.
    + pose proof (t_L _ _ _ _ _ P1). lia.
    + intros [<-|[<-|[]]]; lia.
    + lia.
  - lia.
  - intros z Hz. apply in_app_or in Hz as [Hz|Hz]; [apply RK in Hz; lia|apply RV3 in Hz; lia].
  - exact Q13.
  - cbn [keeps]. exists (MMap (Some o)), F', [ko; vo]. split; [|eapply tpost_trans; [exact P|exact Q01|exact Q']].
    assert (Do : o <> ko /\ o <> vo).
    { assert (Io : In o F1) by (pose proof (t_parts _ _ _ _ _ P1) as Z; inversion Z; subst; now left).
      split; intros ->; [apply (proj2 (proj2 (t_T _ _ _ _ _ P1 ko ltac:(cbn; auto)))) in Io|apply (proj2 (proj2 (t_T _ _ _ _ _ P1 vo ltac:(cbn; auto)))) in Io]; exact Io. }
    split; [reflexivity|]. split; [exact Dkv|]. rewrite !set_obj_other by (intro Z; symmetry in Z; tauto). eauto.
Qed.

Definition RK (h' : mem) (a : option htmp * nat) (T' : list nat) : Prop := held h' (fst a) T'.
Lemma theld_L : forall h F x L T h1 x' tmv, tpre h F x L T -> allocs h h1 -> held h tmv T -> held (hstore h1 L x') tmv T.
Proof.
  intros h F x L T h1 x' tmv P [N Fr] H. eapply held_frame; [exact H|]. intros o Ho.
  destruct (t_T _ _ _ _ _ P o Ho) as (K1 & K2 & _). rewrite hstore_other by exact K2. auto.
Qed.

Lemma dec_value_keeps : forall h F x L b T f t typ depth g tmv, tpre h F x L T -> held h tmv T -> supported f = true ->
  keeps h F L T (hdec_value E hrec h f t typ depth b g tmv L) RK.
Proof.
  intros h F x L b T f t typ depth g tmv P HH SU. unfold hdec_value.
  destruct (scalar_num (f_tag f) t typ (rd h b)) as [r|].
  - eapply keeps_bind; [exact P|]. intros [[k|] n] _; cbn [hput].
    + exists (MNum k), [], T. split; [eapply theld_L; eauto using allocs_refl|].
      eapply tpost_new; [exact P|apply allocs_refl|constructor|constructor|intros z []].
    + exists x, F, T. split; [exact HH|]. now apply tpost_refl.
  - destruct (typ =? WBytes)%N; [|eapply keeps_err; eauto].
    eapply keeps_bind; [exact P|]. intros [fb n] _.
    destruct (copy_parts h fb (fst (hcopy h fb))) as (Gs & Gb & K1 & K1' & (K2 & K3) & (K2' & K3')). pose proof (hcopy_allocs h fb) as [K4 K5].
    destruct t as [k| | |id|t0|t0|k' v'|alts|]; try (eapply keeps_err; eauto).
    + destruct (hcopy h fb) as [h1 s]. cbn [fst snd] in *. exists (MStr s), Gs, T.
      split; [eapply theld_L; eauto|]. eapply tpost_new; eauto.
    + destruct (hcopy h fb) as [h1 s]. cbn [fst snd] in *. exists (MBytes (Some s)), Gb, T.
      split; [eapply theld_L; eauto|]. eapply tpost_new; eauto.
    + pose proof (Hrec _ _ _ _ fb id (depth - 1)%Z (tpre_noT _ _ _ _ _ P)) as R. unfold keeps in *.
      destruct (hrec h id (depth - 1)%Z fb L) as [h' a|h' e| |]; cbn [hseq]; try exact Logic.I.
      * destruct R as (x' & F' & T' & -> & Q). destruct (tpost_T _ _ _ _ _ _ _ _ P Q) as [Q' Fr].
        exists x', F', T. split; [|exact Q']. eapply held_frame; eauto.
      * destruct R as (x' & F' & Q). destruct (tpost_T _ _ _ _ _ _ _ _ P Q) as [Q' Fr].
        exists x', F'. eapply tpost_noT, Q'.
    + destruct (f_T f) as [| | | | | |kt vt| |] eqn:ET; try exact Logic.I.
      assert (KE : key_ok (f_ktag f) kt = true /\ elem_ok (f_vtag f) vt = true).
      { unfold supported in SU. rewrite ET in SU. apply andb_true_iff in SU as [SU S2]. apply andb_true_iff in SU as [SU S1]. auto. }
      destruct (getMapDecodeFunc f) as [row|].
      * rewrite (t_load _ _ _ _ _ P). destruct x as [| | | | | |m| |]; try exact Logic.I.
        destruct (DecodeMapKV row (rd h fb)) as [[kk vv]|e| |] eqn:Ekv; cbn [hbind]; try exact Logic.I; [|eapply keeps_err; eauto].
        apply DecodeMapKV_nums in Ekv as (a & c & -> & ->). cbn [embed].
        assert (ST : exists h1 o F1, (match m with Some o => (h, o) | None => let '(h, o) := halloc h (OMap []) in (hstore h L (MMap (Some o)), o) end) = (h1, o) /\
          (forall t, In t T -> objs h1 t = objs h t) /\ tpost h F L T h1 (MMap (Some o)) F1 T).
        { destruct m as [o|].
          - exists h, o, F. split; [reflexivity|]. split; [auto|]. now apply tpost_refl.
          - rewrite halloc_eq. eexists _, (next h), [next h]. split; [reflexivity|]. split; [|now apply tpost_mapmake with (x := MMap None)].
            intros t Ht. destruct (t_T _ _ _ _ _ P t Ht) as (Z1 & Z2 & _). rewrite hstore_other by exact Z2. now apply halloc_old. }
        destruct ST as (h1 & o & F1 & -> & FT & Q1). pose proof (tpre_post _ _ _ _ _ _ _ _ _ P Q1) as P1.
        destruct (tpost_mapset _ _ _ _ _ (MNum a) (MNum c) [] [] P1 ltac:(constructor) ltac:(constructor) ltac:(constructor) ltac:(intros z []) h1 ltac:(lia) ltac:(intros z []))
          as [F' Q2]; [now apply tpost_refl|].
        cbn [keeps]. exists (MMap (Some o)), F', T. split; [|eapply tpost_trans; [exact P|exact Q1|exact Q2]].
        unfold RK. cbn [fst]. eapply held_frame; [exact HH|]. intros z Hz. rewrite set_obj_other; [now apply FT|].
        intros ->. destruct (t_T _ _ _ _ _ P1 o Hz) as (_ & _ & Z). apply Z.
        pose proof (t_parts _ _ _ _ _ P1) as Z1. inversion Z1; subst. now left.
      * destruct tmv as [tmp|].
        -- pose proof (pair_keeps _ _ _ _ fb _ f kt vt (depth - 1)%Z tmp P HH (proj1 KE) (proj2 KE)) as R. unfold keeps in *.
           destruct (HDecodeMapPair E hrec h f kt vt (depth - 1) fb L tmp) as [h' a|h' e| |]; cbn [hseq]; try exact Logic.I; [|exact R].
           destruct R as (x' & F' & T' & HT & Q). exists x', F', T'. split; [exact HT|exact Q].
        -- cbn in HH. subst T. unfold hget. rewrite (halloc_eq h).
           set (h1 := fst (halloc h (OCells [fst g]))). cbv beta iota. rewrite (halloc_eq h1).
           set (h2 := fst (halloc h1 (OCells [snd g]))). cbv beta iota.
           assert (N1 : next h1 = S (next h)) by reflexivity. assert (N2 : next h2 = S (S (next h))) by reflexivity.
           assert (F2 : forall z, z < next h -> objs h2 z = objs h z).
           { intros z Hz. unfold h2. rewrite halloc_old by lia. unfold h1. now apply halloc_old. }
           assert (Q0 : tpost h F L [] h2 x F [next h; next h1]).
           { eapply tpost_side; [exact P|lia| |].
             - intros z Hz _. now apply F2.
             - intros z [<-|[<-|[]]]; (split; [right; lia|lia]). }
           pose proof (tpre_post _ _ _ _ _ _ _ _ _ P Q0) as P0.
           assert (HH0 : held h2 (Some (next h, next h1)) [next h; next h1]).
           { split; [reflexivity|]. split; [lia|]. split.
             - exists (fst g). unfold h2. rewrite halloc_old by lia. unfold h1. apply halloc_new.
             - exists (snd g). apply halloc_new. }
           pose proof (pair_keeps _ _ _ _ fb _ f kt vt (depth - 1)%Z (next h, next h1) P0 HH0 (proj1 KE) (proj2 KE)) as R.
           unfold keeps in *.
           destruct (HDecodeMapPair E hrec h2 f kt vt (depth - 1) fb L (next h, next h1)) as [h' a|h' e| |]; cbn [hseq]; try exact Logic.I.
           ++ destruct R as (x' & F' & T' & HT & Q). exists x', F', T'. split; [exact HT|]. eapply tpost_trans; [exact P|exact Q0|exact Q].
           ++ destruct R as (x' & F' & Q). exists x', F'. eapply tpost_trans; [exact P|exact Q0|exact Q].
Qed.

(** ** New variables and elements *)
Lemma cell_keeps : forall {X} h F x L T tmv x0 y (k : hres X) R,
  tpre h F x L T -> held h tmv T -> (forall h1, parts h1 x0 []) -> points_to y (next h) ->
  (let h1 := hstore (fst (halloc h (OCells [x0]))) L y in
   tpre h1 [] x0 (cell (next h)) T -> held h1 tmv T -> keeps h1 [] (cell (next h)) T k R) ->
  keeps h F L T k R.
Proof.
  intros X h F x L T tmv x0 y k R P HH O Py H. cbn zeta in H.
  specialize (H (tpre_cell _ _ _ _ _ _ y P O)).
  specialize (H ltac:(eapply theld_L; [exact P|apply allocs_halloc|exact HH])).
  unfold keeps in *. destruct k as [h' a|h' e| |]; try exact Logic.I.
  - destruct H as (x' & F' & T' & HT & Q). do 3 eexists. split; [exact HT|]. eapply tpost_cell; eauto.
  - destruct H as (x' & F' & Q). do 2 eexists. eapply tpost_cell; eauto.
Qed.
Lemma ptr_keeps : forall {X} t h F x L T tmv (k : mem -> gotype -> loc -> hres X) R,
  tpre h F x L T -> held h tmv T ->
  (forall h1 t1 F1 x1 L1, tpre h1 F1 x1 L1 T -> held h1 tmv T -> keeps h1 F1 L1 T (k h1 t1 L1) R) ->
  keeps h F L T (let '(h, t, L) := hmallocIfPointer E h t L in k h t L) R.
Proof.
  intros X t h F x L T tmv k R P HH H.
  destruct t as [| | |id|t0|t0|k' v'|alts|]; cbn [hmallocIfPointer]; try (eapply H; eauto; fail).
  rewrite halloc_eq. eapply cell_keeps with (tmv := tmv) (x0 := hfresh E t0) (y := MPtr (Some (cell (next h)))); [exact P|exact HH| | |].
  - intro h1. now apply fresh_parts.
  - now left.
  - cbn zeta. intros P1 H1. eapply H; eauto.
Qed.

Lemma hgrow_parts : forall h F s L T te, tpre h F (MSlice s) L T ->
  let '(h1, s1) := hgrow E h te s in
  exists xs y0 ys Fx Fe Fs, allocs h h1 /\ has_cells h1 s1 xs (y0 :: ys) /\
    parts_all h1 xs Fx /\ parts h1 y0 Fe /\ parts_all h1 ys Fs /\ NoDup ((s_arr s1 :: Fx) ++ Fe ++ Fs) /\
    forall o, In o ((s_arr s1 :: Fx) ++ Fe ++ Fs) -> (In o F \/ next h <= o) /\ o < next h1.
Proof.
  intros h F s L T te [p1 p2 p3 p4 p5 p6].
  inversion p1 as [| | | | | |s0 El Ec|s0 xs ys G Hc HC PA| | | | | |]; subst.
  - unfold hgrow. rewrite Ec. cbn [Nat.eqb]. unfold hReallocSlice. rewrite Ec, El. cbn [Nat.leb Nat.sub].
    unfold elems_of. rewrite El. cbn [firstn app]. rewrite halloc_eq.
    exists [], (hfresh E te), (repeat (hfresh E te) 7), [], [], [].
    split; [apply allocs_halloc|]. split.
    { exists [], []. unfold cells_of. cbn [s_arr s_off s_len s_cap]. rewrite halloc_new. repeat split; reflexivity. }
    split; [constructor|]. split; [now apply fresh_parts|]. split; [now apply repeat_parts|].
    cbn [app s_arr]. split; [constructor; [intro Z; exact Z|constructor]|].
    intros o [<-|[]]. rewrite halloc_next. lia.
  - pose proof (has_cells_lengths _ _ _ _ HC) as (Lx & Ly).
    destruct (parts_all_split _ _ _ _ PA) as (G1 & G2 & -> & K1 & K2).
    unfold hgrow. destruct (Nat.eqb_spec (s_cap s) 0) as [?|_]; [lia|].
    destruct (Nat.eqb_spec (s_len s) (s_cap s)) as [Ef|Ef].
    + unfold hReallocSlice. destruct (Nat.leb_spec (2 * s_cap s) (s_cap s)) as [?|_]; [lia|].
      rewrite halloc_eq.
      assert (Ex : elems_of h s = xs).
      { destruct HC as (c1 & c2 & Hc' & Hc1 & Hx & Hy). unfold elems_of. rewrite Hc', <- Hc1, skipn_app, Nat.sub_diag, skipn_all.
        cbn [skipn app]. rewrite <- Hx, firstn_app, firstn_all, Nat.sub_diag. cbn. apply app_nil_r. }
      assert (E2 : 2 * s_cap s - s_len s = S (s_cap s - 1)) by lia. rewrite E2, Ex. set (ob := OCells _).
      assert (NL : ~ In (next h) G1).
      { intro K. assert (K' : In (next h) (s_arr s :: G1 ++ G2)) by (right; apply in_or_app; now left). apply p4 in K'. lia. }
      exists xs, (hfresh E te), (repeat (hfresh E te) (s_cap s - 1)), G1, [], [].
      split; [apply allocs_halloc|]. split.
      { exists [], []. unfold cells_of. cbn [s_arr s_off s_len s_cap]. rewrite halloc_new. unfold ob. rewrite app_nil_r.
        cbn [app repeat]. split; [reflexivity|]. split; [reflexivity|]. split; [exact Lx|]. cbn [length]. rewrite repeat_length. lia. }
      split.
      { apply (parts_all_frame h _); [exact K1|]. intros o Ho. apply halloc_old. apply p4. right. apply in_or_app. now left. }
      split; [now apply fresh_parts|]. split; [now apply repeat_parts|]. rewrite !app_nil_r. cbn [s_arr].
      split.
      * constructor; [exact NL|]. inversion p3; subst. eapply nodup_l; eassumption.
      * intros o [<-|Ho]; rewrite halloc_next; [lia|]. assert (K' : In o (s_arr s :: G1 ++ G2)) by (right; apply in_or_app; now left).
        split; [now left|]. apply p4 in K'. lia.
    + destruct ys as [|y0 ys]; [cbn in Ly; lia|]. inversion K2 as [|? ? Fe Fs K3 K4]; subst.
      exists xs, y0, ys, G1, Fe, Fs.
      split; [apply allocs_refl|]. do 4 (split; [assumption|]). split; [exact p3|].
      intros o Ho. split; [now left|]. now apply p4.
Qed.

Lemma elem_keeps : forall {X} h F s L T te tmv (k : mem -> loc -> hres X) R,
  tpre h F (MSlice s) L T -> held h tmv T ->
  (forall h1 F1 x1 L1, tpre h1 F1 x1 L1 T -> held h1 tmv T -> keeps h1 F1 L1 T (k h1 L1) R) ->
  keeps h F L T
    (let '(h, s) := hgrow E h te s in
     let h := hstore h L (MSlice (longer s)) in k h (elem s (s_len s))) R.
Proof.
  intros X h F s L T te tmv k R P HH H.
  pose proof (hgrow_parts _ _ _ _ _ te P) as G. destruct (hgrow E h te s) as [h1 s1].
  destruct G as (xs & y0 & ys & Fx & Fe & Fs & Al & HC & Rx & Oy & Os & ND & HW).
  pose proof (tpre_elem _ _ _ _ _ P _ _ _ _ _ _ _ _ Al HC Oy ND HW) as Pe.
  cbn zeta in *. specialize (H _ _ _ _ Pe ltac:(eapply theld_L; [exact P|exact Al|exact HH])).
  unfold keeps in *. destruct (k _ _) as [h' a|h' e| |]; try exact Logic.I.
  - destruct H as (x' & F' & T' & HT & Q). do 3 eexists. split; [exact HT|]. eapply tpost_elem; eauto.
  - destruct H as (x' & F' & Q). do 2 eexists. eapply tpost_elem; eauto.
Qed.

(** ** One field *)
Lemma nums_parts : forall h l, parts_all h (map MNum l) [].
Proof.
  intros h l. induction l; cbn; [constructor|]. change (@nil nat) with (@nil nat ++ []). constructor; [constructor|assumption].
Qed.
Lemma tpost_packed : forall h F x L T l, tpre h F x L T ->
  exists F', tpost h F L T (hstore (fst (halloc h (OCells (map MNum l)))) L (MSlice (mkSl (next h) 0 (length l) (length l))))
    (MSlice (mkSl (next h) 0 (length l) (length l))) F' T.
Proof.
  intros h F x L T l P. destruct l as [|n l].
  - exists []. eapply tpost_new; [exact P|apply allocs_halloc|now apply parts_noslice|constructor|intros o []].
  - set (l' := n :: l) in *. exists [next h]. eapply tpost_new; [exact P|apply allocs_halloc| | |].
    + change [next h] with (s_arr (mkSl (next h) 0 (length l') (length l')) :: []).
      eapply parts_slice with (xs := map MNum l') (ys := []).
      * cbn. lia.
      * exists [], []. unfold cells_of. cbn [s_arr s_off s_len s_cap]. rewrite halloc_new, !app_nil_r, map_length.
        repeat split; auto.
      * rewrite app_nil_r. apply nums_parts.
    + constructor; [intro Z; exact Z|constructor].
    + intros o [<-|[]]. rewrite halloc_next. lia.
Qed.

Lemma dec_field_keeps : forall h F x L b T f typ depth g tmv, tpre h F x L T -> held h tmv T -> supported f = true ->
  keeps h F L T (hdec_field E hrec h f typ depth b g tmv L) RK.
Proof.
  intros h F x L b T f typ depth g tmv P HH SU.
  set (hbody := fun (h : mem) (t : gotype) (L : loc) =>
    match f_rep f, t with
    | true, TSlice te =>
        if ((typ =? WBytes)%N && f_packed f)%bool then
          match packedDecoderFuncs (packedCoder f) with
          | Some g =>
              hlet (packed, n) <- HConsumeBytes h b at h;
              hlet l <- g (rd h packed) at h;
              let '(h, o) := halloc h (OCells (map MNum l)) in
              HOk (hstore h L (MSlice (mkSl o 0 (length l) (length l)))) (tmv, n)
          | None => HPanic
          end
        else
          match hload h L with
          | Some (MSlice s) =>
              let '(h, s) := hgrow E h te s in
              let h := hstore h L (MSlice (longer s)) in
              let '(h, t, L) := hmallocIfPointer E h te (elem s (s_len s)) in
              hdec_value E hrec h f t typ depth b g tmv L
          | _ => HPanic
          end
    | _, _ => hdec_value E hrec h f t typ depth b g tmv L
    end).
  assert (BODY : forall h1 t1 F1 x1 L1, tpre h1 F1 x1 L1 T -> held h1 tmv T -> keeps h1 F1 L1 T (hbody h1 t1 L1) RK).
  { intros h1 t1 F1 x1 L1 P1 H1.
    assert (DV : keeps h1 F1 L1 T (hdec_value E hrec h1 f t1 typ depth b g tmv L1) RK) by (eapply dec_value_keeps; eauto).
    unfold hbody. destruct (f_rep f); [|exact DV].
    destruct t1 as [| | |id|t0|te|k' v'|alts|]; try exact DV. clear DV.
    destruct ((typ =? WBytes)%N && f_packed f)%bool.
    - destruct (packedDecoderFuncs (packedCoder f)) as [pf|]; [|exact Logic.I].
      eapply keeps_bind; [exact P1|]. intros [fb n] _. eapply keeps_bind; [exact P1|]. intros l _.
      rewrite halloc_eq. destruct (tpost_packed _ _ _ _ _ l P1) as [F' Q].
      do 3 eexists. split; [|exact Q]. eapply theld_L; [exact P1|apply allocs_halloc|exact H1].
    - rewrite (t_load _ _ _ _ _ P1). destruct x1 as [| | | | |s| | |]; try exact Logic.I.
      eapply (elem_keeps h1 F1 s L1 T te tmv
        (fun h L => let '(h, t, L) := hmallocIfPointer E h te L in hdec_value E hrec h f t typ depth b g tmv L)); eauto.
      intros h2 F2 x2 L2 P2 H2.
      eapply (ptr_keeps te h2 F2 x2 L2 T tmv (fun h t L => hdec_value E hrec h f t typ depth b g tmv L)); eauto.
      intros h3 t3 F3 x3 L3 P3 H3. eapply dec_value_keeps; eauto. }
  change (hdec_field E hrec h f typ depth b g tmv L) with (
    let '(h, L) := match f_oneof f with
      | Some w => let '(h, o) := halloc h (OCells [hfresh E (f_T f)]) in (hstore h L (MIface (Some (w, Some (cell o)))), cell o)
      | None => (h, L) end in
    let '(h, t, L) := hmallocIfPointer E h (f_T f) L in hbody h t L).
  destruct (f_oneof f) as [w|].
  - rewrite halloc_eq. eapply cell_keeps with (tmv := tmv) (x0 := hfresh E (f_T f)); [exact P|exact HH| | |].
    + intro h1. now apply fresh_parts.
    + right. exists w. reflexivity.
    + cbn zeta. intros P1 H1. eapply ptr_keeps; eauto.
  - eapply ptr_keeps; eauto.
Qed.
End Rec.

(** ** Unknown fields *)
Lemma tpost_reset : forall h F xs u L T s, tpre h F (MStruct xs u) L T ->
  exists u' F', tpost h F L T (hresetUnknownFields h s L) (MStruct xs u') F' T.
Proof.
  intros h F xs u L T s P. unfold hresetUnknownFields. rewrite (t_load _ _ _ _ _ P).
  assert (RF : tpost h F L T h (MStruct xs u) F T) by now apply tpost_refl.
  destruct u as [u|]; [|eauto]. destruct (sd_unknown s); [|eauto].
  pose proof (parts_struct_inv _ _ _ _ (t_parts _ _ _ _ _ P)) as (F1 & -> & PA & SZ).
  eexists _, (F1 ++ unknown_parts (Some u)). eapply tpost_update; [exact P|lia|auto| |apply P|].
  - change (unknown_parts (Some u)) with (unknown_parts (Some (mkSl (s_arr u) (s_off u) 0 (s_cap u)))).
    constructor; [exact PA|]. cbn. lia.
  - intros o Ho. split; [now left|]. now apply (t_F _ _ _ _ _ P).
Qed.
Lemma tpost_append : forall h F xs u L T s raw, tpre h F (MStruct xs u) L T -> raw <> [] ->
  exists u' F', tpost h F L T (happendToUnknownFields capf h s L raw) (MStruct xs u') F' T.
Proof.
  intros h F xs u L T s raw P NR. unfold happendToUnknownFields.
  assert (RF : tpost h F L T h (MStruct xs u) F T) by now apply tpost_refl.
  destruct (sd_unknown s); [|eauto]. rewrite (t_load _ _ _ _ _ P).
  pose proof (parts_struct_inv _ _ _ _ (t_parts _ _ _ _ _ P)) as (F1 & -> & PA & SZ).
  pose proof P as [p1 p2 p3 p4 p5 p6].
  unfold happend. set (u0 := match u with Some u => u | None => nil_slice end). cbv zeta.
  destruct (Nat.leb_spec (s_len u0 + length raw) (s_cap u0)) as [Le|Gt].
  - set (u1 := mkSl (s_arr u0) (s_off u0) (s_len u0 + length raw) (s_cap u0)).
    eexists _, (F1 ++ unknown_parts (Some u1)).
    assert (U1 : unknown_parts (Some u1) = unknown_parts u).
    { destruct u as [u|]; [reflexivity|]. cbn. reflexivity. }
    assert (Wr : s_cap u0 = 0 \/ In (s_arr u0) (unknown_parts u)).
    { destruct u as [u|]; [|now left]. cbn in u0. unfold u0, unknown_parts, array_of. destruct (Nat.eqb_spec (s_cap u) 0); [now left|right; now left]. }
    destruct Wr as [W0|W0]; [destruct raw; [congruence|cbn in Le; lia]|].
    eapply tpost_update; [exact P| | | | |].
    + cbn. lia.
    + intros o Lo Fo. cbn [write_bytes]. apply set_obj_other. intros ->. apply Fo, in_or_app. now right.
    + constructor; [|cbn; lia]. apply (parts_all_frame h _); [exact PA|]. intros o Ho. apply set_obj_other. intros ->.
        destruct (NoDup_app3 _ (unknown_parts u) [] ltac:(rewrite app_nil_r; exact p3)) as (_ & K & _). apply K in W0. tauto.
    + rewrite U1. exact p3.
    + rewrite U1. cbn. exact (fun o Ho => conj (or_introl Ho) (proj1 (p4 o Ho))).
  - rewrite halloc_eq. set (ob := OBytes _). set (c := Nat.max _ _) in *.
    set (u1 := mkSl (next h) 0 (s_len u0 + length raw) c).
    eexists _, (F1 ++ unknown_parts (Some u1)).
    assert (I1 : forall o, In o F1 -> o < next h) by (intros o Ho; apply p4, in_or_app; now left).
    assert (I2 : forall o, In o (unknown_parts (Some u1)) -> o = next h).
    { intro o. cbn. unfold array_of. destruct (c =? 0); cbn; [tauto|]. intros [<-|[]]. reflexivity. }
    eapply tpost_update; [exact P| | | | |].
    + rewrite halloc_next. lia.
    + intros o Lo _. now apply halloc_old.
    + constructor; [|cbn; lia]. apply (parts_all_frame h _); [exact PA|]. intros o Ho. apply halloc_old. auto.
    + rewrite <- (app_nil_r (unknown_parts (Some u1))). apply NoDup_mid.
      * rewrite app_nil_r. eapply nodup_l; eassumption.
      * cbn. unfold array_of. destruct (c =? 0); [constructor|]. constructor; [intro Z; exact Z|constructor].
      * intros o Ho. apply I2 in Ho as ->. split; [intro K; apply I1 in K; lia|intro Z; exact Z].
    + intros o Ho. rewrite halloc_next. apply in_app_or in Ho as [Ho|Ho].
      * apply I1 in Ho as K. split; [left; apply in_or_app; now left|lia].
      * apply I2 in Ho as ->. split; [right; lia|lia].
Qed.

Lemma keeps_trans : forall {X} h F x L T h1 x1 F1 T1 (r : hres X) R, tpre h F x L T ->
  tpost h F L T h1 x1 F1 T1 -> keeps h1 F1 L T1 r R -> keeps h F L T r R.
Proof.
  intros X h F x L T h1 x1 F1 T1 r R P Q H. unfold keeps in *. destruct r; auto.
  - destruct H as (x' & F' & T' & HT & Q'). exists x', F', T'. split; [exact HT|]. eapply tpost_trans; eauto.
  - destruct H as (x' & F' & Q'). exists x', F'. eapply tpost_trans; eauto.
Qed.
Definition K0 {X} (h : mem) (a : X) (T' : list nat) : Prop := T' = [].
Lemma keeps_moreT : forall {X} h F L T (r : hres X), keeps h F L [] r K0 -> keeps h F L T r K0.
Proof.
  intros X h F L T r H. unfold keeps in *. destruct r; auto.
  - destruct H as (x' & F' & T' & HT & Q). exists x', F', T'. split; [exact HT|]. now apply tpost_moreT.
  - destruct H as (x' & F' & Q). exists x', F'. now apply tpost_moreT.
Qed.

(** ** The loop *)
Section Loop.
Variable hrec : bytes -> mem -> nat -> Z -> slice -> loc -> hres unit.
Hypothesis Hrec : forall rest h F x L b id depth, tpre h F x L [] ->
  keeps h F L [] (hrec rest h id depth b L) (fun _ _ T' => T' = []).
Variable id : nat.
Variable depth : Z.
Variable hg : bytes -> fdesc -> mv * mv.

Lemma loop_keeps : forall fuel h F xs u L b T f tmv, tpre h F (MStruct xs u) L T -> held h tmv T ->
  match f with Some f0 => In f0 (sd_fields (E id)) | None => True end ->
  keeps h F L T (hdecode_loop E capf hrec fuel (E id) depth hg h f tmv L b) K0.
Proof.
  induction fuel as [|fuel IH]; intros h F xs u L b T f tmv P HH Hf.
  - cbn [hdecode_loop]. destruct (s_len b); [|exact Logic.I].
    exists (MStruct xs u), F, []. split; [reflexivity|]. eapply tpost_noT, tpost_refl, P.
  - cbn [hdecode_loop]. destruct (s_len b).
    { exists (MStruct xs u), F, []. split; [reflexivity|]. eapply tpost_noT, tpost_refl, P. }
    eapply keeps_bind; [exact P|]. intros [[num typ] n0] Et. eapply keeps_bind; [exact P|]. intros b1 _.
    set (cached := match f with Some f0 => if (f_id f0 =? Z.of_N num)%Z then Some f0 else None | None => None end) in *.
    assert (HC : match cached with Some f0 => In f0 (sd_fields (E id)) | None => True end).
    { unfold cached. destruct f as [f0|]; [|exact Logic.I]. destruct (f_id f0 =? Z.of_N num)%Z; [exact Hf|exact Logic.I]. }
    assert (KNOWN : forall f1 T0 tmv0, In f1 (sd_fields (E id)) -> tpre h F (MStruct xs u) L T0 -> held h tmv0 T0 ->
      keeps h F L T0
        (match hload h (slot L (f_slot f1)) with
         | None => HPanic
         | Some _ =>
             hseq (hdec_field E (hrec (rd h b)) h f1 typ depth b1 (hg (rd h b) f1) tmv0 (slot L (f_slot f1)))
               (fun h '(tmv', m) =>
                hlet b2 <- hslice_from b1 m at h;
                hdecode_loop E capf hrec fuel (E id) depth hg h (Some f1) tmv' L b2)
         end) K0).
    { intros f1 T0 tmv0 Hf1 P0 H0.
      rewrite (hload_slot _ _ _ _ _ (t_load _ _ _ _ _ P0)).
      destruct (nth_error xs (f_slot f1)) as [x|] eqn:Ex; [|exact Logic.I].
      destruct (tpre_slot _ _ _ _ _ _ _ _ P0 Ex) as (Fi & Pi & Lift).
      destruct (wf_fields _ _ (WF id) f1 Hf1) as (_ & SU & _).
      pose proof (dec_field_keeps (hrec (rd h b)) (Hrec (rd h b)) _ _ _ _ b1 _ f1 typ depth (hg (rd h b) f1) tmv0 Pi H0 SU) as FS.
      unfold keeps in FS.
      destruct (hdec_field E (hrec (rd h b)) h f1 typ depth b1 (hg (rd h b) f1) tmv0 (slot L (f_slot f1))) as [h' [tmv' m]|h' e| |];
        cbn [hseq]; try exact Logic.I.
      - destruct FS as (x' & Fi' & T' & HT & Q). destruct (Lift _ _ _ _ Q) as [F' Q'].
        eapply keeps_trans; [exact P0|exact Q'|]. pose proof (tpre_post _ _ _ _ _ _ _ _ _ P0 Q') as P1.
        eapply keeps_bind; [exact P1|]. intros b2 _. eapply IH; [exact P1|exact HT|exact Hf1].
      - destruct FS as (x' & Fi' & Q). destruct (Lift _ _ _ _ Q) as [F' Q']. cbn. eauto. }
    destruct cached as [f1|].
    + cbn iota. eapply KNOWN; eauto.
    + cbn iota. apply keeps_moreT. pose proof (tpre_noT _ _ _ _ _ P) as P0.
      destruct (GetField_In E WF id num) as ([f1|] & -> & HI).
      * eapply KNOWN; eauto. reflexivity.
      * eapply keeps_bind; [exact P0|]. intros m _. eapply keeps_bind; [exact P0|]. intros b2 _.
        eapply keeps_bind; [exact P0|]. intros raw Es.
        assert (NR : raw <> []).
        { apply ConsumeTag_inv in Et as (t & r & Et & Lt & Ln & _). unfold slice_to in Es.
          destruct (n0 + m <=? length (rd h b)) eqn:El; [|discriminate]. apply Nat.leb_le in El. injection Es as <-.
          intro Z. apply (f_equal (@length _)) in Z. rewrite firstn_length in Z. cbn in Z. lia. }
        destruct (tpost_append _ _ _ _ _ _ (E id) _ P0 NR) as (u' & F' & Q).
        pose proof (tpre_post _ _ _ _ _ _ _ _ _ P0 Q) as P2.
        eapply keeps_trans; [exact P0|exact Q|]. eapply IH; [exact P2|reflexivity|exact Logic.I].
Qed.
End Loop.

(** ** Structs *)
Lemma struct_keeps : forall fuel path HP h F x L b id depth, tpre h F x L [] ->
  keeps h F L [] (HDecodeStruct E capf fuel path HP h id depth b L) (fun _ _ T' => T' = []).
Proof.
  induction fuel as [|fuel IH]; intros path HP h F x L b id depth P; [exact Logic.I|].
  cbn [HDecodeStruct]. destruct (depth =? 0)%Z; [eapply keeps_err; eauto|].
  rewrite (t_load _ _ _ _ _ P). destruct x as [| | | | | | |xs u|]; try exact Logic.I.
  destruct (tpost_reset _ _ _ _ _ _ (E id) P) as (u' & F' & Q).
  eapply keeps_trans; [exact P|exact Q|]. pose proof (tpre_post _ _ _ _ _ _ _ _ _ P Q) as P1.
  eapply loop_keeps; [|exact P1|reflexivity|exact Logic.I].
  intros rest h1 F1 x1 L1 b1 id1 depth1 P2. eapply IH, P2.
Qed.
End Keep.
