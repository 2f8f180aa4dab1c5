(** More consequences: packed lists, message merging, nesting, pools. *)
From Verif Require Import Base Wire WireSpec WireProofs WireConsume WireFacts Coder MapTables Value WireVal Desc MsgSpec ValFacts ScalarProofs Writes Encoder EncProofs EncFacts Decoder DescProofs DecSpec DecScalar DecMap DecProofs DecFacts DecFacts2.
From Coq Require Import Lia ZifyBool ZifyNat ZifyN Init.Byte.
Open Scope N_scope.

(** ** Scalars: decoding what encoding writes *)
Lemma unzigzag_zigzag : forall z, unzigzag (zigzag z) = z.
Proof.
  intro z. unfold zigzag, unzigzag. destruct (0 <=? z)%Z eqn:S.
  - replace (Z.to_N (2 * z)) with (2 * Z.to_N z) by lia. rewrite N.even_mul. cbn [N.even orb].
    replace (2 * Z.to_N z / 2) with (Z.to_N z) by (rewrite N.mul_comm, N.div_mul; lia). lia.
  - replace (Z.to_N (-2 * z - 1)) with (1 + 2 * Z.to_N (- z - 1)) by lia. rewrite N.even_add_mul_2. cbn [N.even].
    replace ((1 + 2 * Z.to_N (- z - 1) + 1) / 2) with (Z.to_N (- z)); [lia|].
    replace (1 + 2 * Z.to_N (- z - 1) + 1) with (Z.to_N (- z) * 2) by lia. rewrite N.div_mul; lia.
Qed.

Lemma scalar_reads : forall raw tag k n, scalar_ok tag k = true -> num_ok k n ->
  reads_scalar raw tag k (wtype (scalar_den tag k n)) (payload_of (scalar_den tag k n)) n.
Proof.
  intros raw tag k n OK [B B1].
  assert (I32 : n < 2^32 -> u64_of (int32_of n) < 2^64 /\ u64_of (int32_of n) mod 2^32 = n).
  { intro H. assert (X : u64_of (int32_of n) = if n <? 2^31 then n else n + (2^32 - 1) * 2^32).
    { unfold u64_of, int32_of. destruct (n <? 2^31) eqn:S; [rewrite Z.mod_small; lia|].
      replace (Z.of_N n - 2^32)%Z with (Z.of_N n + (2^32 - 1) * 2^32 + (-1) * 2^64)%Z by lia. rewrite Z.mod_add by lia. rewrite Z.mod_small; lia. }
    rewrite X. destruct (n <? 2^31) eqn:S; [split; [lia|apply N.mod_small; lia]|]. split; [lia|].
    rewrite N.mod_add by lia. apply N.mod_small. lia. }
  assert (Z32 : n < 2^32 -> zigzag (int32_of n) < 2^64 /\ u32_of (unzigzag (zigzag (int32_of n))) = n).
  { intro H. rewrite unzigzag_zigzag. unfold u32_of, zigzag, int32_of. destruct (n <? 2^31) eqn:S.
    - split; [destruct (0 <=? _)%Z; lia|]. rewrite Z.mod_small; lia.
    - split; [destruct (0 <=? _)%Z; lia|]. replace (Z.of_N n - 2^32)%Z with (Z.of_N n + (-1) * 2^32)%Z by lia. rewrite Z.mod_add by lia. rewrite Z.mod_small; lia. }
  assert (Z64 : n < 2^64 -> zigzag (int64_of n) < 2^64 /\ u64_of (unzigzag (zigzag (int64_of n))) = n).
  { intro H. rewrite unzigzag_zigzag. unfold u64_of, zigzag, int64_of. destruct (n <? 2^63) eqn:S.
    - split; [destruct (0 <=? _)%Z; lia|]. rewrite Z.mod_small; lia.
    - split; [destruct (0 <=? _)%Z; lia|]. replace (Z.of_N n - 2^64)%Z with (Z.of_N n + (-1) * 2^64)%Z by lia. rewrite Z.mod_add by lia. rewrite Z.mod_small; lia. }
  assert (V : forall m, In tag [TagVarint; TagZigZag32; TagZigZag64] -> k <> Bool -> m < 2^64 -> varint_store tag k m = n ->
     reads_scalar raw tag k 0 (varint m) n).
  { intros m HT HK HM <-. constructor; [assumption|now apply varint_valid|now right]. }
  assert (F32 : n < 2^32 -> tag = TagFixed32 -> reads_scalar raw tag k 5 (le_bytes 4 n) n).
  { intros H HT. rewrite <- (le_value_le_bytes 4 n H) at 2. now constructor. }
  assert (F64 : n < 2^64 -> tag = TagFixed64 -> reads_scalar raw tag k 1 (le_bytes 8 n) n).
  { intros H HT. rewrite <- (le_value_le_bytes 8 n H) at 2. now constructor. }
  destruct tag, k; try discriminate OK; cbn [skind_size] in B; cbn [scalar_den wtype payload_of];
    try (apply F32; [exact B|reflexivity]); try (apply F64; [exact B|reflexivity]);
    try (apply V; [cbn; auto|discriminate| |]; cbn [varint_store]; first [apply I32; exact B|apply Z32; exact B|apply Z64; exact B|exact B|idtac]).
  all: try (change (2 ^ (8 * 4)) with (2^32) in B; lia); try reflexivity.
  specialize (B1 eq_refl). assert (n = 0 \/ n = 1) as [-> | ->] by lia.
  - destruct raw; [apply (rd_byte true _ _ x00); reflexivity|].
    apply (rd_varint false TagVarint Bool [x00] 0); [cbn; auto| |now left]. repeat split; cbn; lia.
  - destruct raw; [apply (rd_byte true _ _ x01); reflexivity|].
    apply (rd_varint false TagVarint Bool [x01] 1); [cbn; auto| |now left]. repeat split; cbn; lia.
Qed.

(** ** C27 *)
Lemma packed_exact : forall tag k, scalar_ok tag k = true ->
  exists g, packedDecoderFuncs (getCoderType tag (RScalar k)) = Some g /\
    (forall b, (exists l, g b = Ok l) \/ (exists e, g b = Err e)) /\
    (forall b l, g b = Ok l <-> exists ps, b = concat ps /\ Forall2 (reads_scalar true tag k (tag_wtype tag)) ps l) /\
    (forall l, Forall (num_ok k) l -> g (concat (map (fun n => payload_of (scalar_den tag k n)) l)) = Ok l).
Proof.
  intros tag k OK. destruct (packed_decoder tag k OK) as (g & G & P1 & P2). exists g. split; [assumption|]. split; [|split].
  - intro b. specialize (P2 b). destruct (g b); eauto; easy.
  - intros b l. split.
    + intro H. specialize (P2 b). rewrite H in P2. exact P2.
    + intros (ps & -> & F). now apply P1.
  - intros l F. apply P1. induction F as [|n l HN _ IH]; cbn; constructor; [|assumption].
    assert (W : wtype (scalar_den tag k n) = tag_wtype tag) by (destruct tag, k; try discriminate OK; reflexivity).
    rewrite <- W. now apply scalar_reads.
Qed.

Section Facts.
Variable E : env.
Hypothesis WF : wf_env E.

(** ** C37 *)
Lemma packed_then_unpacked : forall P id b s u v' rs1 r rs2 f k, wt E (TStruct id) (VStruct s u) ->
  wire_records b (rs1 ++ r :: rs2) -> Unmarshal E P b (APtr id (Some (VStruct s u))) = DOk v' tt ->
  In f (sd_fields (E id)) -> f_T f = TSlice (TScalar k) -> f_packed f = true ->
  of_field f r = true -> w_typ r = 2 -> (forall r', In r' rs2 -> of_field f r' = true -> w_typ r' <> 2) ->
  exists s' u' l ps ns xs sp', v' = VStruct s' u' /\ nth_error s' (f_slot f) = Some (VSlice (map VNum ns ++ xs) sp') /\
    w_data r = l ++ concat ps /\ valid_varint l (blen (concat ps)) /\
    Forall2 (reads_scalar true (f_tag f) k (tag_wtype (f_tag f))) ps ns /\
    Forall2 (fun r x => reads E 1000 false (f_tag f) (TScalar k) (w_typ r) (w_data r) (unset E (TScalar k)) x)
      (filter (of_field f) rs2) xs.
Proof.
  intros P id b s u v' rs1 r rs2 f k W R H HI HT HP HF HY NL. destruct (ok_steps E WF _ _ _ _ _ _ _ W R H) as (s' & u' & -> & _ & S).
  assert (HO : f_oneof f = None).
  { destruct (supported_cases f (wf_supported E WF id f HI)) as [(_ & _ & X)|[[X _]|[X _]]]; auto.
    rewrite HT in X. discriminate X. }
  apply steps_app in S as (v1 & S1 & S2). apply steps_struct in S1 as (s1 & u1 & ->). inversion S2 as [|? ? ? v2 ? ST S3]; subst.
  assert (exists s2 u2, v2 = VStruct s2 u2) as (s2 & u2 & ->) by (inversion ST; subst; eauto).
  destruct (step_same E WF _ _ _ _ _ _ _ f ST HI) as (x & x' & _ & N2 & M); [now apply N.eqb_eq|].
  rewrite HY in M. inversion M; subst; try congruence.
  - match goal with X : reads _ _ _ _ _ _ _ _ _ |- _ => rewrite HT in X; inversion X end.
  - match goal with X : f_T f = TSlice (TScalar ?a) |- _ => assert (a = k) by congruence; subst a end.
    destruct (steps_list E WF 1000 id f (TScalar k) HI HO HT _ _ _ _ _ _ _ S3 N2) as (xs & sp' & N' & F & _ & _).
    + intros r' I' O'. left. now apply NL.
    + exists s', u', l, ps, ns, xs, sp'. repeat (split; [first [reflexivity|assumption|congruence]|]).
      eapply Forall2_impl; [|exact F]. intros r0 y (x0 & _ & RD). eapply reads_indep; [reflexivity|exact RD].
  - match goal with X : _ \/ _ |- _ => destruct X; congruence end.
Qed.

(** ** One record *)
Lemma one_record : forall P id s u f typ t p slot slot', wt E (TStruct id) (VStruct s u) ->
  In f (sd_fields (E id)) -> nth_error s (f_slot f) = Some slot -> typ < 8 -> valid_varint t (8 * field_num f + typ) ->
  merges E 1000 f typ p slot slot' ->
  exists u', Unmarshal E P (t ++ p) (APtr id (Some (VStruct s u))) = DOk (VStruct (upd_nth (f_slot f) slot' s) u') tt.
Proof.
  intros P id s u f typ t p slot slot' W HI NS TY VT M. eexists. apply (Unmarshal_known E WF P id _ _ _ [mkW (field_num f) typ t p]).
  - assumption.
  - split; [|cbn; unfold w_raw; cbn; now rewrite app_nil_r]. constructor; [|constructor]. split; [exact VT|]. split; [exact TY|].
    split; [exact (proj1 (wf_num E anyQ WF id f HI))|]. exists O. eapply merges_payload; exact M.
  - cbn [drop_unknown]. econstructor; [|constructor]. eapply st_known; [exact HI|reflexivity|exact NS|exact M].
Qed.

(** ** C38 *)
Lemma ordered_entry : forall P id s u f kt vt m t l c1 t1 p1 c2 t2 p2 junk k v, wt E (TStruct id) (VStruct s u) ->
  In f (sd_fields (E id)) -> f_T f = TMap kt vt -> nth_error s (f_slot f) = Some (VMap m) ->
  valid_varint t (8 * field_num f + 2) ->
  let e := [c1] ++ p1 ++ [c2] ++ p2 ++ junk in
  valid_varint l (blen e) -> b2n c1 = 8 * 1 + t1 -> t1 < 8 -> b2n c2 = 8 * 2 + t2 -> t2 < 8 ->
  reads E 1000 (raw_bools kt vt (f_vtag f)) (f_ktag f) kt t1 p1 VUninit k ->
  reads E 999 (raw_bools kt vt (f_vtag f)) (f_vtag f) vt t2 p2 (unset E vt) v ->
  exists u', Unmarshal E P (t ++ l ++ e) (APtr id (Some (VStruct s u))) =
    DOk (VStruct (upd_nth (f_slot f) (VMap (Some (put_entry m k v))) s) u') tt.
Proof.
  intros P id s u f kt vt m t l c1 t1 p1 c2 t2 p2 junk k v W HI HT NS VT e VL C1 T1 C2 T2 RK RV.
  eapply one_record; [exact W|exact HI|exact NS| |exact VT|]; [lia|].
  assert (HO : f_oneof f = None).
  { destruct (supported_cases f (wf_supported E WF id f HI)) as [(_ & _ & X)|[[X _]|[X _]]]; auto.
    rewrite HT in X. discriminate X. }
  eapply m_entry; eassumption.
Qed.

(** ** C43 *)
Lemma nested_merge : forall P id v v' rs1 t1 l1 s1 t2 l2 s2 t l rs2 f id' q1 q2, wt E (TStruct id) v ->
  In f (sd_fields (E id)) -> f_oneof f = None -> f_T f = TStruct id' -> sd_unknown (E id') = false ->
  wire_records s1 q1 -> wire_records s2 q2 ->
  let r1 := mkW (field_num f) 2 t1 (l1 ++ s1) in let r2 := mkW (field_num f) 2 t2 (l2 ++ s2) in
  let r := mkW (field_num f) 2 t (l ++ s1 ++ s2) in
  valid_varint l1 (blen s1) -> valid_varint l2 (blen s2) -> valid_varint l (blen (s1 ++ s2)) ->
  Forall wf_wrec (rs1 ++ r1 :: r2 :: rs2) -> wf_wrec r ->
  (Unmarshal E P (concat (map w_raw (rs1 ++ r1 :: r2 :: rs2))) (APtr id (Some v)) = DOk v' tt <->
   Unmarshal E P (concat (map w_raw (rs1 ++ r :: rs2))) (APtr id (Some v)) = DOk v' tt).
Proof.
  intros P id v v' rs1 t1 l1 s1 t2 l2 s2 t l rs2 f id' q1 q2 W HI HO HT HU Q1 Q2 r1 r2 r V1 V2 VL F FR.
  assert (F' : Forall wf_wrec (rs1 ++ r :: rs2)).
  { apply Forall_app in F as [A B]. inversion B as [|? ? ? C]; subst. inversion C; subst. apply Forall_app. auto. }
  rewrite (Unmarshal_known E WF P id _ v v' (rs1 ++ r1 :: r2 :: rs2)) by (auto; split; auto).
  rewrite (Unmarshal_known E WF P id _ v v' (rs1 ++ r :: rs2)) by (auto; split; auto).
  assert (RP : f_rep f = false).
  { pose proof (wf_supported E WF id f HI) as SP. unfold supported in SP. rewrite HT in SP. destruct (f_rep f); [discriminate|reflexivity]. }
  (* one record of the field *)
  assert (ONE : forall l0 s0 t0 x y, valid_varint l0 (blen s0) ->
    (step E 1000 id (mkW (field_num f) 2 t0 (l0 ++ s0)) x y <->
     exists sl un slot slot', x = VStruct sl un /\ nth_error sl (f_slot f) = Some slot /\ decodes E 999 id' s0 slot slot' /\
       y = VStruct (upd_nth (f_slot f) slot' sl) un)).
  { intros l0 s0 t0 x y V0. split.
    - intro ST. inversion ST; subst.
      + match goal with K : known _ _ _ = false |- _ => rewrite known_false in K; specialize (K f HI) end. now cbn in *.
      + match goal with HI' : In ?g _, HN' : field_num ?g = _ |- _ =>
          cbn [w_num] in HN'; assert (g = f) by (eapply (wf_same_num E anyQ WF id); congruence); subst g end.
        match goal with M : merges _ _ _ _ _ _ _ |- _ => cbn [w_typ w_data] in M; inversion M; subst; try congruence end.
        match goal with X : reads _ _ _ _ _ _ _ _ _ |- _ => rewrite HT in X; inversion X; subst end.
        match goal with X : ?a ++ ?b = l0 ++ s0, Y : valid_varint ?a _ |- _ => destruct (varint_prefix_unique _ _ _ _ _ _ Y V0 X) as (-> & _ & ->) end.
        eauto 10.
    - intros (sl & un & slot & slot' & -> & NS & DC & ->). eapply st_known; [exact HI|reflexivity|exact NS|].
      apply m_single; auto. rewrite HT. cbn [w_typ w_data]. now constructor. }
  (* decodes of a concatenation *)
  assert (CAT : forall x y, decodes E 999 id' (s1 ++ s2) x y <-> exists z, decodes E 999 id' s1 x z /\ decodes E 999 id' s2 z y).
  { assert (DU : forall x, drop_unknown E id' x = x) by (intros []; cbn; rewrite ?HU; reflexivity).
    assert (DS : forall b x y, decodes E 999 id' b x y <-> exists s u rs, x = VStruct s u /\ wire_records b rs /\ steps E 999 id' rs x y).
    { intros b x y. split.
      - intro D. inversion D; subst. pose proof D as D'. apply (decodes_steps E WF) in D' as (_ & rs & RR & SS); [|eauto].
        rewrite DU in SS. eauto 8.
      - intros (s & u & rs & -> & RR & SS). apply (decodes_steps E WF); [eauto|]. split; [lia|]. exists rs. rewrite DU. auto. }
    intros x y. rewrite DS. split.
    - intros (s & u & rs & -> & RR & SS). destruct Q1 as [QF ->]. apply wire_records_split in RR as (rs' & -> & RR); [|assumption].
      apply steps_app in SS as (z & S1 & S2). exists z. split; apply DS.
      + exists s, u, q1. split; [reflexivity|]. split; [split; [assumption|reflexivity]|assumption].
      + destruct (steps_struct _ _ _ _ _ _ _ S1) as (s' & u' & ->). eauto 8.
    - intros (z & D1 & D2). apply DS in D1 as (s & u & rs & -> & RR & SS). apply DS in D2 as (s' & u' & rs' & -> & RR' & SS').
      exists s, u, (rs ++ rs'). split; [reflexivity|]. split; [now apply wire_records_app|]. apply steps_app. eauto. }
  rewrite !steps_app. split; intros (x & S1 & S2); exists x; (split; [assumption|]).
  - inversion S2 as [|? ? ? y ? ST1 S3]; subst. inversion S3 as [|? ? ? z ? ST2 S4]; subst.
    apply ONE in ST1 as (sl & un & a & c & -> & NS & D1 & ->); [|assumption].
    apply ONE in ST2 as (sl' & un' & a' & c' & X & NS' & D2 & ->); [|assumption]. injection X as <- <-.
    assert (LT : (f_slot f < length sl)%nat) by (apply nth_error_Some; congruence).
    rewrite upd_nth_same in NS' by assumption. injection NS' as <-.
    econstructor; [|exact S4]. apply ONE; [assumption|]. exists sl, un, a, c'. split; [reflexivity|]. split; [assumption|].
    split; [apply CAT; eauto|]. f_equal. clear. revert sl. generalize (f_slot f). intros n sl. revert n.
    induction sl as [|y sl IH]; intros [|n]; cbn; [reflexivity|reflexivity|reflexivity|]. f_equal. apply IH.
  - inversion S2 as [|? ? ? y ? ST1 S3]; subst. apply ONE in ST1 as (sl & un & a & c & -> & NS & D1 & ->); [|assumption].
    apply CAT in D1 as (z & D1 & D2). assert (LT : (f_slot f < length sl)%nat) by (apply nth_error_Some; congruence).
    econstructor; [apply ONE; [assumption|]; exists sl, un, a, z; auto|].
    econstructor; [apply ONE; [assumption|]; do 4 eexists; split; [reflexivity|]; split; [now apply upd_nth_same|]; split; [exact D2|reflexivity]|].
    replace (upd_nth (f_slot f) c (upd_nth (f_slot f) z sl)) with (upd_nth (f_slot f) c sl); [exact S3|].
    clear. revert sl. generalize (f_slot f). intros n sl. revert n.
    induction sl as [|y sl IH]; intros [|n]; cbn; [reflexivity|reflexivity|reflexivity|]. f_equal. apply IH.
Qed.

(** ** C08 *)
Lemma decodes_limit : forall n id b, nests E false n id b ->
  forall D v v', (0 < D)%Z -> decodes E D id b v v' -> (Z.of_nat n <= D)%Z.
Proof.
  intros n id b NE. induction NE as [id b|n id b rs r f l s id' RR HR HI HN HY HD VL MT NE IH|
    n id b rs r f l kt vt c1 p1 c2 l2 s2 junk id' RR HR HI HN HY HD VL P1 C2 V2 HT MT MM NE IH]; intros D v v' PD DC.
  - lia.
  - apply (decodes_steps E WF) in DC as (_ & rs' & RR' & SS); [|inversion DC; subst; eauto].
    rewrite <- (wire_records_unique _ _ _ RR RR') in SS. destruct (steps_all E _ _ _ _ _ _ SS HR) as (v1 & v2 & ST).
    assert (exists x y, decodes E (D - 1) id' s x y) as (x & y & D1).
    { inversion ST; subst.
      - match goal with K : known _ _ _ = false |- _ => rewrite known_false in K; now apply K in HI end.
      - match goal with HI' : In ?g _, HN' : field_num ?g = _ |- _ =>
          assert (g = f) by (eapply (wf_same_num E anyQ WF id); congruence); subst g end.
        match goal with M : merges _ _ _ _ _ _ _ |- _ => rewrite HY, HD in M; rename M into MG end.
        assert (RS : forall t x y, msg_type t = Some id' -> reads E D false (f_tag f) t 2 (l ++ s) x y -> exists x y, decodes E (D - 1) id' s x y).
        { clear - VL. intros t x y MT RD.
          assert (ST : forall i x y, reads E D false (f_tag f) (TStruct i) 2 (l ++ s) x y -> decodes E (D - 1) i s x y).
          { intros i a c R. inversion R; subst.
            match goal with X : ?a ++ ?b = l ++ s, Y : valid_varint ?a _ |- _ => destruct (varint_prefix_unique _ _ _ _ _ _ Y VL X) as (-> & _ & ->) end.
            assumption. }
          destruct t as [| | |i|t| | | |]; try discriminate MT.
          - injection MT as <-. eauto.
          - destruct t; try discriminate MT. injection MT as <-. inversion RD; subst. eauto. }
        inversion MG; subst.
        + destruct MT as [MT|(t & X & _)]; [eapply RS; eassumption|].
          destruct (supported_cases f (wf_supported E WF id f HI)) as [(_ & _ & Y)|[[Y _]|[Y _]]]; [rewrite X in Y; discriminate Y|congruence|congruence].
        + destruct MT as [MT|(t & X & _)]; [eapply RS; eassumption|]. rewrite X in *.
          match goal with R : reads _ _ _ _ _ _ _ _ _ |- _ => inversion R end.
        + destruct MT as [MT|(t & X & MT)].
          * match goal with X : f_T f = _ |- _ => rewrite X in MT; discriminate MT end.
          * match goal with Y : f_T f = TSlice _ |- _ => rewrite X in Y; injection Y as -> end. discriminate MT.
        + destruct MT as [MT|(t' & X & MT)].
          * match goal with X : f_T f = _ |- _ => rewrite X in MT; discriminate MT end.
          * match goal with Y : f_T f = TSlice _ |- _ => rewrite X in Y; injection Y as -> end. eapply RS; eassumption.
        + destruct MT as [MT|(t' & X & MT)]; [|congruence].
          match goal with X : f_T f = _ |- _ => rewrite X in MT; discriminate MT end. }
    assert (D - 1 <> 0)%Z by (inversion D1; subst; assumption).
    apply IH in D1; lia.
  - discriminate MM.
Qed.
Lemma decode_limit : forall P id b v, wt E (TStruct id) v -> nests E false 1001 id b ->
  exists v' e, Unmarshal E P b (APtr id (Some v)) = DErr v' e.
Proof.
  intros P id b v W NE. destruct (Unmarshal_total E WF P id b v W) as [(v' & X & _)|X]; [|exact X].
  apply (Unmarshal_decodes E WF) in X; [|assumption]. assert (0 < 1000)%Z as P0 by lia.
  pose proof (decodes_limit 1001 id b NE 1000 v v' P0 X) as Y.
  exfalso. revert Y. clear. change (Z.of_nat 1001) with 1001%Z. lia.
Qed.

(** ** C11: re-emission *)
Lemma reemitted : forall id s u out, wt E (TStruct id) (VStruct s u) ->
  Marshal E (APtr id (Some (VStruct s u))) = Ok out -> blen out < 2^63 ->
  exists known, Marshal E (APtr id (Some (VStruct s None))) = Ok known /\ out = known ++ unk_bytes u.
Proof.
  intros id s u out W H SM. assert (W0 : wt E (TStruct id) (VStruct s None)).
  { apply wtg_struct in W as [A _]. apply wtg_struct. split; [exact A|exact I]. }
  pose proof (Marshal_wire E WF id (Some (VStruct s u)) W) as M. pose proof (Marshal_wire E WF id (Some (VStruct s None)) W0) as M0.
  assert (U : forall d w, msg E false (S d) id (Some (VStruct s w)) =
    option_map (fun fs => QMsg fs (match w with Some x => x | None => [] end))
      (fields_den E (msg E false d) (msg E false d) (sd_fields (E id)) s)) by reflexivity.
  rewrite U in M, M0. clear U. revert M M0.
  generalize (fields_den E (msg E false 999) (msg E false 999) (sd_fields (E id)) s). intros [fs|] M M0; cbn [option_map] in *.
  - destruct M as (s1 & M & S1). destruct M0 as (s0 & M0 & S0). rewrite H in M. injection M as <-.
    specialize (S1 (or_introl SM)). cbn [wire] in *. exists s0. split; [assumption|].
    rewrite S0; [rewrite app_nil_r; rewrite S1; reflexivity|]. right. rewrite app_nil_r.
    rewrite S1 in SM. unfold small, blen in *. rewrite app_length in SM. lia.
  - congruence.
Qed.
End Facts.
