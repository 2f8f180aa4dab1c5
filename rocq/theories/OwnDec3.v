(** Fields, structs and whole messages: the decoder on memory and the decoder on values. *)
From Coq Require Import Lia.
From Verif Require Import Base Wire Coder MapTables Value WireVal Desc Encoder Decoder MsgSpec WireConsume ValFacts DescProofs
  HMem HDecoder OwnSpec OwnMem OwnPost OwnCell OwnDec OwnDec2.
Open Scope nat_scope.

Definition RV (h' : mem) (a : option htmp * nat) (c : option (val * val) * nat) (T' : list nat) : Prop :=
  snd a = snd c /\ held h' (fst a) T'.

Lemma held_post_L : forall h A W x v L b T h1 x' tmv, pre h A W x v L b T -> allocs h h1 -> held h tmv T ->
  held (hstore h1 L x') tmv T.
Proof.
  intros h A W x v L b T h1 x' tmv P [N F] H. eapply held_frame; [exact H|]. intros o Ho.
  destruct (p_T _ _ _ _ _ _ _ _ P o Ho) as (K1 & K2 & _). rewrite hstore_other by exact K2. auto.
Qed.
Lemma held_put : forall h A W x v L b T o tmv, pre h A W x v L b T -> held h tmv T -> held (hput h L o) tmv T.
Proof.
  intros h A W x v L b T [k|] tmv P H; [|exact H]. eapply held_post_L; [exact P|apply allocs_refl|exact H].
Qed.

Section Sim.
Variable E : env.
Hypothesis WF : wf_env E.
Variable capf : nat -> nat.

Section Rec.
Variable hrec : mem -> nat -> Z -> slice -> loc -> hres unit.
Variable rec : nat -> Z -> bytes -> val -> dres unit.
Hypothesis Hrec : forall h A W x v L b id depth, pre h A W x v L b [] ->
  sim h A W L [] (hrec h id depth b L) (rec id depth (rd h b) v) (fun _ _ _ T' => T' = []).

Lemma sim_err' : forall {X Y} h A W x v L b T (R : mem -> X -> Y -> list nat -> Prop) e e', pre h A W x v L b T -> e = e' ->
  sim h A W L T (HErr h e) (DErr v e') R.
Proof. intros. subst. eapply sim_err; eauto. Qed.

Lemma dec_value_sim : forall h A W x v L b T f t typ depth g gt tmv tmt, pre h A W x v L b T -> held h tmv T -> supported f = true ->
  sim h A W L T (hdec_value E hrec h f t typ depth b g tmv L) (dec_value E rec f t typ depth (rd h b) gt tmt v) RV.
Proof.
  intros h A W x v L b T f t typ depth g gt tmv tmt P HH SU. unfold hdec_value, dec_value. rewrite dec_scalar_num.
  pose proof (p_b _ _ _ _ _ _ _ _ P) as [Hb Vb].
  destruct (scalar_num (f_tag f) t typ (rd h b)) as [[[o n]|e| |]|]; cbn [hbind dbind]; try exact Logic.I.
  - destruct (post_put _ _ _ _ _ _ _ _ o P) as [x' Q]. cbn. do 4 eexists. split; [|exact Q].
    split; [reflexivity|]. eapply held_put; eauto.
  - eapply sim_err; eauto.
  - destruct (typ =? WBytes)%N; [|eapply sim_err; eauto].
    pose proof (HConsumeBytes_spec h b Vb) as CB.
    destruct (HConsumeBytes h b) as [[fb n]|e| |], (ConsumeBytes (rd h b)) as [[bb n']|e'| |]; cbn [hbind dbind]; try contradiction; try exact Logic.I;
      [|eapply sim_err'; eauto].
    destruct CB as (-> & Eb & Vf & <-).
    assert (Pf : pre h A W x v L fb T) by (eapply pre_sub; eauto).
    destruct t as [k| | |id|t0|t0|k' v'|alts|]; try (eapply sim_err; eauto).
    + pose proof (post_copy _ _ _ _ _ _ _ _ fb (MStr (snd (hcopy h fb))) (VStr (rd h fb)) P Vf Logic.I) as Q.
      specialize (Q ltac:(intros A' h' I1 <-; now constructor)).
      pose proof (hcopy_spec h fb A Vf) as (Al & _). destruct (hcopy h fb) as [h1 s]. cbn [fst snd] in *.
      cbn. do 4 eexists. split; [|exact Q]. split; [reflexivity|]. eapply held_post_L; eauto.
    + pose proof (post_copy _ _ _ _ _ _ _ _ fb (MBytes (Some (snd (hcopy h fb)))) (VBytes (Some (rd h fb))) P Vf Logic.I) as Q.
      specialize (Q ltac:(intros A' h' I1 <-; now constructor)).
      pose proof (hcopy_spec h fb A Vf) as (Al & _). destruct (hcopy h fb) as [h1 s]. cbn [fst snd] in *.
      cbn. do 4 eexists. split; [|exact Q]. split; [reflexivity|]. eapply held_post_L; eauto.
    + pose proof (Hrec _ _ _ _ _ _ _ id (depth - 1)%Z (pre_noT _ _ _ _ _ _ _ _ Pf)) as R. unfold sim in *.
      destruct (hrec h id (depth - 1)%Z fb L) as [h' a|h' e| |], (rec id (depth - 1)%Z (rd h fb) v) as [v' c|v' e'| |];
        cbn [hseq]; try contradiction; try exact Logic.I.
      * destruct R as (x' & A' & W' & T' & -> & Q). destruct (post_T _ _ _ _ _ _ _ _ _ _ _ _ _ P Q) as [Q' F].
        do 4 eexists. split; [|exact Q']. split; [reflexivity|]. eapply held_frame; eauto.
      * destruct R as (-> & x' & A' & W' & Q). destruct (post_T _ _ _ _ _ _ _ _ _ _ _ _ _ P Q) as [Q' F].
        split; [reflexivity|]. exists x', A', W'. eapply post_noT, Q'.
    + destruct (f_T f) as [| | | | | |kt vt| |] eqn:ET; try exact Logic.I.
      assert (KE : key_ok (f_ktag f) kt = true /\ elem_ok (f_vtag f) vt = true).
      { unfold supported in SU. rewrite ET in SU. apply andb_true_iff in SU as [SU S2]. apply andb_true_iff in SU as [SU S1]. auto. }
      destruct (getMapDecodeFunc f) as [row|].
      * rewrite (p_load _ _ _ _ _ _ _ _ P).
        pose proof (owns_kind _ _ _ _ _ (p_owns _ _ _ _ _ _ _ _ P)) as K.
        destruct x as [| | | | | |m| |]; destruct v as [| | | | | |w| |]; try discriminate K; try exact Logic.I.
        destruct (DecodeMapKV row (rd h fb)) as [[kk vv]|e| |] eqn:Ekv; cbn [hbind dbind]; try exact Logic.I; [|eapply sim_err; eauto].
        apply DecodeMapKV_nums in Ekv as (a & c & -> & ->). cbn [embed].
        pose proof (p_owns _ _ _ _ _ _ _ _ P) as O.
        apply owns_map_inv in O as [(-> & -> & ->)|(o & ents & mm & -> & -> & -> & Oo & Re)].
        -- rewrite halloc_eq. pose proof (post_mapmake _ _ _ _ _ _ P) as Q1.
           assert (P1 : pre (hstore (fst (halloc h (OMap []))) L (MMap (Some (next h)))) A [next h] (MMap (Some (next h))) (VMap (Some [])) L b T)
             by (eapply pre_post; eauto).
           pose proof (post_mapset _ _ _ _ _ _ _ _ (MNum a) (VNum a) (MNum c) (VNum c) P1) as Q2.
           specialize (Q2 ltac:(constructor) ltac:(constructor)).
           cbn [sim]. do 4 eexists. split; [|eapply post_trans; [exact P|exact Q1|exact Q2]].
           split; [reflexivity|]. cbn [fst]. eapply held_frame; [exact HH|]. intros z Hz.
           destruct (p_T _ _ _ _ _ _ _ _ P1 z Hz) as (_ & Z2 & Z3 & _). destruct (p_T _ _ _ _ _ _ _ _ P z Hz) as (Z1 & _).
           rewrite set_obj_other by (intros ->; apply Z3; now left). rewrite hstore_other by exact Z2. now apply halloc_old.
        -- pose proof (post_mapset _ _ _ _ _ _ _ _ (MNum a) (VNum a) (MNum c) (VNum c) P) as Q2.
           specialize (Q2 ltac:(constructor) ltac:(constructor)).
           cbn [sim]. do 4 eexists. split; [|exact Q2]. split; [reflexivity|]. cbn [fst]. eapply held_frame; [exact HH|]. intros z Hz.
           destruct (p_T _ _ _ _ _ _ _ _ P z Hz) as (_ & _ & Z3 & _).
           apply set_obj_other. intros ->. apply Z3. now left.
      * destruct tmv as [tmp|].
        -- pose proof (pair_sim E WF capf hrec rec Hrec _ _ _ _ _ _ _ _ f kt vt (depth - 1)%Z tmp (match tmt with Some x => x | None => gt end) Pf HH (proj1 KE) (proj2 KE)) as R.
           unfold sim in *.
           destruct (HDecodeMapPair E hrec h f kt vt (depth - 1) fb L tmp) as [h' a|h' e| |],
             (DecodeMapPair E rec f kt vt (depth - 1) (rd h fb) v (match tmt with Some x => x | None => gt end)) as [v'' c|v'' e'| |];
             cbn [hseq]; try contradiction; try exact Logic.I.
           ++ destruct R as (x' & A' & W' & T' & HT & Q). do 4 eexists. split; [|exact Q]. split; [reflexivity|exact HT].
           ++ destruct R as (-> & x' & A' & W' & Q). split; [reflexivity|]. exists x', A', W'. exact Q.
        -- cbn in HH. subst T. unfold hget. rewrite (halloc_eq h).
           set (h1 := fst (halloc h (OCells [fst g]))). cbv beta iota. rewrite (halloc_eq h1).
           set (h2 := fst (halloc h1 (OCells [snd g]))). cbv beta iota.
           assert (N1 : next h1 = S (next h)) by reflexivity. assert (N2 : next h2 = S (S (next h))) by reflexivity.
           assert (F2 : forall z, z < next h -> objs h2 z = objs h z).
           { intros z Hz. unfold h2. rewrite halloc_old by lia. unfold h1. now apply halloc_old. }
           assert (Q0 : post h A W L [] h2 x v A W [next h; next h1]).
           { eapply post_side; [exact P|lia| | | |].
             - intros z Hz _. now apply F2.
             - now intros z Hz.
             - intros z Hz. apply (p_A _ _ _ _ _ _ _ _ P) in Hz as Z. split; [now left|lia].
             - intros z [<-|[<-|[]]]; (split; [right; lia|]; split; [lia|]); intro Z; apply (p_A _ _ _ _ _ _ _ _ P) in Z; lia. }
           assert (P0 : pre h2 A W x v L fb [next h; next h1]) by (eapply pre_post; eauto).
           assert (HH0 : held h2 (Some (next h, next h1)) [next h; next h1]).
           { split; [reflexivity|]. split; [lia|]. split.
             - exists (fst g). unfold h2. rewrite halloc_old by lia. unfold h1. apply halloc_new.
             - exists (snd g). apply halloc_new. }
           assert (Rf : rd h2 fb = rd h fb) by (apply rd_ext; right; apply F2; rewrite Eb; exact Hb).
           pose proof (pair_sim E WF capf hrec rec Hrec _ _ _ _ _ _ _ _ f kt vt (depth - 1)%Z (next h, next h1) (match tmt with Some x => x | None => gt end) P0 HH0 (proj1 KE) (proj2 KE)) as R.
           rewrite Rf in R. unfold sim in *.
           destruct (HDecodeMapPair E hrec h2 f kt vt (depth - 1) fb L (next h, next h1)) as [h' a|h' e| |],
             (DecodeMapPair E rec f kt vt (depth - 1) (rd h fb) v (match tmt with Some x => x | None => gt end)) as [v'' c|v'' e'| |];
             cbn [hseq]; try contradiction; try exact Logic.I.
           ++ destruct R as (x' & A' & W' & T' & HT & Q). do 4 eexists. split; [|eapply post_trans; [exact P|exact Q0|exact Q]].
              split; [reflexivity|exact HT].
           ++ destruct R as (-> & x' & A' & W' & Q). split; [reflexivity|]. exists x', A', W'. eapply post_trans; [exact P|exact Q0|exact Q].
Qed.

(** ** New variables and elements *)
Lemma sim_rd : forall h A W x v L b T h1, pre h A W x v L b T -> objs h1 (s_arr b) = objs h (s_arr b) -> rd h1 b = rd h b.
Proof. intros. apply rd_ext. now right. Qed.

Lemma cell_sim : forall {X Y} h A W x v L b T tmv x0 v0 y put (k : hres X) (d : dres Y) R,
  pre h A W x v L b T -> held h tmv T -> (forall h1, owns h1 A [] x0 v0) -> leaf y ->
  (forall h' (A2 : nat -> Prop) x' v', A2 (next h) -> hload h' (cell (next h)) = Some x' -> reads h' A2 x' v' -> reads h' A2 y (put v')) ->
  (let h1 := hstore (fst (halloc h (OCells [x0]))) L y in
   pre h1 A [] x0 v0 (cell (next h)) b T -> held h1 tmv T -> rd h1 b = rd h b ->
   sim h1 A [] (cell (next h)) T k d R) ->
  sim h A W L T k (dmap put d) R.
Proof.
  intros X Y h A W x v L b T tmv x0 v0 y put k d R P HH O Ly HR H. cbn zeta in H.
  specialize (H (pre_cell _ _ _ _ _ _ _ _ _ _ y P O)).
  specialize (H ltac:(eapply held_post_L; [exact P|apply allocs_halloc|exact HH])).
  specialize (H ltac:(eapply sim_rd; [exact P|]; rewrite hstore_other by (intro Z; apply (proj2 (p_L _ _ _ _ _ _ _ _ P)); now symmetry);
    apply halloc_old; apply (p_b _ _ _ _ _ _ _ _ P))).
  unfold sim in *. destruct k as [h' a|h' e| |], d as [v' c|v' e'| |]; cbn [dmap]; try contradiction; try exact Logic.I.
  - destruct H as (x' & A' & W' & T' & HT & Q). do 4 eexists. split; [exact HT|].
    eapply post_cell; [exact P|exact O|exact Q|exact Ly|]. intros A2 H1 H2 H3. eapply HR; eauto.
  - destruct H as (-> & x' & A' & W' & Q). split; [reflexivity|]. do 3 eexists.
    eapply post_cell; [exact P|exact O|exact Q|exact Ly|]. intros A2 H1 H2 H3. eapply HR; eauto.
Qed.

Lemma dmap_id : forall {X} (d : dres X), dmap (fun x => x) d = d.
Proof. now intros X []. Qed.
Lemma dmap_dmap : forall {X} (d : dres X) f g, dmap (fun x => f (g x)) d = dmap f (dmap g d).
Proof. now intros X []. Qed.

Lemma ptr_sim : forall {X Y} t h A W x v L b T tmv (k : mem -> gotype -> loc -> hres X) (d : gotype -> val -> dres Y) R,
  pre h A W x v L b T -> held h tmv T ->
  (forall h1 t1 W1 x1 v1 L1, pre h1 A W1 x1 v1 L1 b T -> held h1 tmv T -> rd h1 b = rd h b ->
    sim h1 A W1 L1 T (k h1 t1 L1) (d t1 v1) R) ->
  sim h A W L T (let '(h, t, L) := hmallocIfPointer E h t L in k h t L)
    (let '(t, p, put) := mallocIfPointer E t v in dmap put (d t p)) R.
Proof.
  intros X Y t h A W x v L b T tmv k d R P HH H.
  destruct t as [| | |id|t0|t0|k' v'|alts|]; cbn [hmallocIfPointer mallocIfPointer]; rewrite ?dmap_id; try (eapply H; eauto; fail).
  rewrite halloc_eq. eapply cell_sim with (tmv := tmv) (y := MPtr (Some (cell (next h)))) (x0 := hfresh E t0) (v0 := fresh E t0); [exact P|exact HH| | | |].
  - intro h1. apply (fresh_owns E WF t0).
  - exact Logic.I.
  - intros h' A2 x' v' H1 H2 H3. now econstructor; [exact H1|exact H2|].
  - cbn zeta. intros P1 H1 R1. eapply H; eauto.
Qed.

Lemma owns_repeat : forall h A t n, owns_all h A [] (repeat (hfresh E t) n) (repeat (fresh E t) n).
Proof.
  intros h A t n. induction n as [|n IH]; cbn; [constructor|]. change (@nil nat) with (@nil nat ++ []).
  constructor; [apply (fresh_owns E WF)|exact IH].
Qed.

Lemma hgrow_spec : forall h A W s es sp L b T te, pre h A W (MSlice s) (VSlice es sp) L b T ->
  let '(h1, s1) := hgrow E h te s in
  exists xs y0 ys e0 sp' We Ws, grow E te es sp = e0 :: sp' /\ allocs h h1 /\ has_cells h1 s1 xs (y0 :: ys) /\
    reads_all h1 A xs es /\ owns h1 A We y0 e0 /\ owns_all h1 A Ws ys sp' /\ NoDup (s_arr s1 :: We ++ Ws) /\
    forall o, In o (s_arr s1 :: We ++ Ws) -> (In o W \/ next h <= o) /\ o < next h1 /\ ~ A o.
Proof.
  intros h A W s es sp L b T te [p1 p2 p3 p4 p5 p6 p7 p8].
  assert (NA : forall x, allocs h (fst (halloc h x)) /\ (forall o, In o [next h] -> (In o W \/ next h <= o) /\ o < next (fst (halloc h x)) /\ ~ A o)).
  { intro x. split; [apply allocs_halloc|]. intros o [<-|[]]. rewrite halloc_next. split; [now right|]. split; [lia|].
    intro Z. apply p5 in Z. lia. }
  apply owns_slice_inv in p1 as [(El & Ec & -> & -> & ->)|(xs & ys & W1 & -> & Hc & HC & Rx & Oy)].
  - unfold hgrow. rewrite Ec. cbn [Nat.eqb]. unfold hReallocSlice. rewrite Ec, El. cbn [Nat.leb Nat.sub].
    unfold elems_of. rewrite El. cbn [firstn app]. rewrite halloc_eq.
    destruct (NA (OCells (repeat (hfresh E te) 8))) as [N1 N2].
    exists [], (hfresh E te), (repeat (hfresh E te) 7), (fresh E te), (repeat (fresh E te) 7), [], [].
    do 2 (split; [reflexivity||exact N1|]). split; [|split; [constructor|split; [apply (fresh_owns E WF)|split; [apply owns_repeat|split; [constructor; [intro Z; exact Z|constructor]|exact N2]]]]].
    exists [], []. unfold cells_of. cbn [s_arr s_off s_len s_cap]. rewrite halloc_new. repeat split; reflexivity.
  - pose proof (has_cells_lengths _ _ _ _ HC) as (Lx & Ly).
    assert (Le : length es = s_len s) by (rewrite <- Lx; symmetry; eapply reads_all_length; eauto).
    assert (Lp : length sp = length ys) by (symmetry; eapply owns_all_length; eauto).
    unfold hgrow, grow. rewrite Le, Lp. replace (s_len s + length ys) with (s_cap s) by lia.
    destruct (Nat.eqb_spec (s_cap s) 0) as [?|_]; [lia|].
    destruct (Nat.eqb_spec (s_len s) (s_cap s)) as [Ef|Ef].
    + unfold hReallocSlice. destruct (Nat.leb_spec (2 * s_cap s) (s_cap s)) as [?|_]; [lia|].
      rewrite halloc_eq. set (ob := OCells _). destruct (NA ob) as [N1 N2].
      assert (Ex : elems_of h s = xs).
      { destruct HC as (c1 & c2 & Hc' & Hc1 & Hx & Hy). unfold elems_of. rewrite Hc', <- Hc1, skipn_app, Nat.sub_diag, skipn_all.
        cbn [skipn app]. rewrite <- Hx, firstn_app, firstn_all, Nat.sub_diag. cbn. apply app_nil_r. }
      assert (E2 : 2 * s_cap s - s_len s = S (s_cap s - 1)) by lia. unfold ob in *. clear ob. rewrite E2 in *.
      exists xs, (hfresh E te), (repeat (hfresh E te) (s_cap s - 1)), (fresh E te), (repeat (fresh E te) (s_cap s - 1)), [], [].
      do 2 (split; [reflexivity||exact N1|]). split; [|split; [|split; [apply (fresh_owns E WF)|split; [apply owns_repeat|split; [constructor; [intro Z; exact Z|constructor]|exact N2]]]]].
      * exists [], []. unfold cells_of. cbn [s_arr s_off s_len s_cap]. rewrite halloc_new. rewrite Ex, app_nil_r.
        cbn [app]. split; [reflexivity|]. split; [reflexivity|]. split; [exact Lx|]. cbn [length]. rewrite repeat_length. lia.
      * apply (reads_all_frame h A); auto; [|now intros o Ho]. intros o Ho. apply N1. now apply p5.
    + destruct ys as [|y0 ys]; [cbn in Ly; lia|]. inversion Oy; subst.
      exists xs, y0, ys, v, vs, W0, W2.
      split; [reflexivity|]. split; [apply allocs_refl|]. do 4 (split; [assumption|]). split; [assumption|].
      intros o Ho. destruct (p4 _ Ho) as (K1 & K2 & _). auto.
Qed.

Lemma elem_sim : forall {X Y} h A W s es sp L b T te tmv (k : mem -> loc -> hres X) (d : val -> dres Y) R,
  pre h A W (MSlice s) (VSlice es sp) L b T -> held h tmv T ->
  (forall h1 W1 x1 v1 L1, pre h1 A W1 x1 v1 L1 b T -> held h1 tmv T -> rd h1 b = rd h b ->
    sim h1 A W1 L1 T (k h1 L1) (d v1) R) ->
  sim h A W L T
    (let '(h, s) := hgrow E h te s in
     let h := hstore h L (MSlice (longer s)) in k h (elem s (s_len s)))
    (match grow E te es sp with
     | e0 :: sp => dmap (fun x => VSlice (es ++ [x]) sp) (d e0)
     | [] => DPanic
     end) R.
Proof.
  intros X Y h A W s es sp L b T te tmv k d R P HH H.
  pose proof (hgrow_spec _ _ _ _ _ _ _ _ _ te P) as G. destruct (hgrow E h te s) as [h1 s1].
  destruct G as (xs & y0 & ys & e0 & sp' & We & Ws & -> & Al & HC & Rx & Oy & Os & ND & HW).
  pose proof (pre_elem _ _ _ _ _ _ _ _ P _ _ _ _ _ _ _ _ Al HC Oy ND HW) as Pe.
  cbn zeta in *.
  assert (Hb : objs (hstore h1 L (MSlice (longer s1))) (s_arr b) = objs h (s_arr b)).
  { rewrite hstore_other by (intro Z; apply (proj2 (p_L _ _ _ _ _ _ _ _ P)); now symmetry). apply Al. apply (p_b _ _ _ _ _ _ _ _ P). }
  specialize (H _ _ _ _ _ Pe ltac:(eapply held_post_L; [exact P|exact Al|exact HH]) ltac:(eapply sim_rd; eauto)).
  unfold sim in *. destruct (k _ _) as [h' a|h' e| |], (d e0) as [v' c|v' e'| |]; cbn [dmap]; try contradiction; try exact Logic.I.
  - destruct H as (x' & A' & W' & T' & HT & Q). do 4 eexists. split; [exact HT|].
    eapply post_elem; eauto.
  - destruct H as (-> & x' & A' & W' & Q). split; [reflexivity|]. do 3 eexists. eapply post_elem; eauto.
Qed.

(** ** One field *)
Lemma post_packed : forall h A W x v L b T l, pre h A W x v L b T ->
  exists W', post h A W L T (hstore (fst (halloc h (OCells (map MNum l)))) L (MSlice (mkSl (next h) 0 (length l) (length l))))
    (MSlice (mkSl (next h) 0 (length l) (length l))) (VSlice (map VNum l) []) A W' T.
Proof.
  intros h A W x v L b T l P. destruct l as [|n l].
  - exists []. eapply post_store; [exact P|apply allocs_halloc|now apply owns_noslice|now intros o Ho| |constructor|intros o []].
    intros o Ho. apply (p_A _ _ _ _ _ _ _ _ P) in Ho as Z. rewrite halloc_next. split; [now left|lia].
  - set (l' := n :: l) in *. exists [next h]. eapply post_store; [exact P|apply allocs_halloc| |now intros o Ho| | |].
    + change [next h] with (s_arr (mkSl (next h) 0 (length l') (length l')) :: []).
      eapply owns_slice with (xs := map MNum l') (ys := []).
      * cbn. lia.
      * exists [], []. unfold cells_of. cbn [s_arr s_off s_len s_cap]. rewrite halloc_new, !app_nil_r, map_length.
        repeat split; auto.
      * apply reads_all_nums.
      * constructor.
    + intros o Ho. apply (p_A _ _ _ _ _ _ _ _ P) in Ho as Z. rewrite halloc_next. split; [now left|lia].
    + constructor; [intro Z; exact Z|constructor].
    + intros o [<-|[]]. rewrite halloc_next. split; [lia|]. intro Z. apply (p_A _ _ _ _ _ _ _ _ P) in Z. lia.
Qed.

Lemma dec_field_sim : forall h A W x v L b T f typ depth g gt tmv tmt, pre h A W x v L b T -> held h tmv T -> supported f = true ->
  sim h A W L T (hdec_field E hrec h f typ depth b g tmv L) (dec_field E rec f typ depth (rd h b) gt tmt v) RV.
Proof.
  intros h A W x v L b T f typ depth g gt tmv tmt P HH SU.
  set (hbody := fun (h : mem) (t : gotype) (L : loc) =>
    match f_rep f, t with
    | true, TSlice te =>
        if ((typ =? WBytes)%N && f_packed f)%bool then
          match packedDecoderFuncs (packedCoder f) with
          | Some g =>
              hlet (packed, n) <- HConsumeBytes h b at h;
              hlet l <- g (rd h packed) at h;
              let '(h, o) := halloc h (OCells (map MNum l)) in
              HOk (hstore h L (MSlice (mkSl o 0 (length l) (length l)))) (tmv, n)
          | None => HPanic
          end
        else
          match hload h L with
          | Some (MSlice s) =>
              let '(h, s) := hgrow E h te s in
              let h := hstore h L (MSlice (longer s)) in
              let '(h, t, L) := hmallocIfPointer E h te (elem s (s_len s)) in
              hdec_value E hrec h f t typ depth b g tmv L
          | _ => HPanic
          end
    | _, _ => hdec_value E hrec h f t typ depth b g tmv L
    end).
  set (rb := rd h b).
  set (body := fun (t : gotype) (p : val) =>
    match f_rep f, t with
     | true, TSlice te =>
         if ((typ =? WBytes)%N && f_packed f)%bool then
           match packedDecoderFuncs (packedCoder f) with
           | Some g =>
               dlet (packed, n) <- ConsumeBytes rb at p;
               dlet l <- g packed at p;
               DOk (VSlice (map VNum l) []) (tmt, n)
           | None => DPanic
           end
         else
           match p with
           | VSlice elems spare =>
               match grow E te elems spare with
               | e0 :: sp =>
                   dmap (fun x => VSlice (elems ++ [x]) sp)
                    (let '(t, p, put2) := mallocIfPointer E te e0 in
                     dmap put2 (dec_value E rec f t typ depth rb gt tmt p))
               | [] => DPanic
               end
           | _ => DPanic
           end
     | _, _ => dec_value E rec f t typ depth rb gt tmt p
     end).
  assert (BODY : forall h1 t1 W1 x1 v1 L1, pre h1 A W1 x1 v1 L1 b T -> held h1 tmv T -> rd h1 b = rb ->
    sim h1 A W1 L1 T (hbody h1 t1 L1) (body t1 v1) RV).
  { intros h1 t1 W1 x1 v1 L1 P1 H1 R1.
    assert (DV : sim h1 A W1 L1 T (hdec_value E hrec h1 f t1 typ depth b g tmv L1) (dec_value E rec f t1 typ depth rb gt tmt v1) RV)
      by (rewrite <- R1; now eapply dec_value_sim; eauto).
    unfold hbody, body. destruct (f_rep f); [|exact DV].
    destruct t1 as [| | |id|t0|te|k' v'|alts|]; try exact DV. clear DV.
    destruct ((typ =? WBytes)%N && f_packed f)%bool.
    - destruct (packedDecoderFuncs (packedCoder f)) as [pf|]; [|exact Logic.I].
      pose proof (HConsumeBytes_spec h1 b (proj2 (p_b _ _ _ _ _ _ _ _ P1))) as CB. rewrite R1 in CB.
      destruct (HConsumeBytes h1 b) as [[fb n]|e| |], (ConsumeBytes rb) as [[bb n']|e'| |]; cbn [hbind dbind]; try contradiction; try exact Logic.I;
        [|eapply sim_err'; eauto].
      destruct CB as (-> & Eb & Vf & ->).
      destruct (pf bb) as [l|e| |]; cbn [hbind dbind]; try exact Logic.I; [|eapply sim_err; eauto].
      rewrite halloc_eq. destruct (post_packed _ _ _ _ _ _ _ _ l P1) as [W' Q].
      do 4 eexists. split; [|exact Q]. split; [reflexivity|]. eapply held_post_L; [exact P1|apply allocs_halloc|exact H1].
    - rewrite (p_load _ _ _ _ _ _ _ _ P1).
      pose proof (owns_kind _ _ _ _ _ (p_owns _ _ _ _ _ _ _ _ P1)) as K.
      destruct x1 as [| | | | |s| | |]; destruct v1 as [| | | | |es sp| | |]; try discriminate K; try exact Logic.I.
      eapply (elem_sim h1 A W1 s es sp L1 b T te tmv
        (fun h L => let '(h, t, L) := hmallocIfPointer E h te L in hdec_value E hrec h f t typ depth b g tmv L)
        (fun e0 => let '(t, p, put2) := mallocIfPointer E te e0 in dmap put2 (dec_value E rec f t typ depth rb gt tmt p))); eauto.
      intros h2 W2 x2 v2 L2 P2 H2 R2.
      eapply (ptr_sim te h2 A W2 x2 v2 L2 b T tmv (fun h t L => hdec_value E hrec h f t typ depth b g tmv L)
        (fun t p => dec_value E rec f t typ depth rb gt tmt p)); eauto.
      intros h3 t3 W3 x3 v3 L3 P3 H3 R3. replace rb with (rd h3 b) by congruence. now eapply dec_value_sim; eauto. }
  assert (Eh : hdec_field E hrec h f typ depth b g tmv L =
    let '(h, L) := match f_oneof f with
      | Some w => let '(h, o) := halloc h (OCells [hfresh E (f_T f)]) in (hstore h L (MIface (Some (w, Some (cell o)))), cell o)
      | None => (h, L) end in
    let '(h, t, L) := hmallocIfPointer E h (f_T f) L in hbody h t L) by reflexivity.
  assert (Et : dec_field E rec f typ depth rb gt tmt v =
    match f_oneof f with
    | Some w => dmap (fun x => VIface (Some (w, Some x)))
        (let '(t, p, put1) := mallocIfPointer E (f_T f) (fresh E (f_T f)) in dmap put1 (body t p))
    | None => let '(t, p, put1) := mallocIfPointer E (f_T f) v in dmap put1 (body t p)
    end).
  { assert (Eb : forall t p, body t p = match f_rep f, t with
     | true, TSlice te =>
         if ((typ =? WBytes)%N && f_packed f)%bool then
           match packedDecoderFuncs (packedCoder f) with
           | Some g =>
               dlet (packed, n) <- ConsumeBytes rb at p;
               dlet l <- g packed at p;
               DOk (VSlice (map VNum l) []) (tmt, n)
           | None => DPanic
           end
         else
           match p with
           | VSlice elems spare =>
               match grow E te elems spare with
               | e0 :: sp =>
                   let '(t, p, put2) := mallocIfPointer E te e0 in
                   dmap (fun x => VSlice (elems ++ [put2 x]) sp)
                     (dec_value E rec f t typ depth rb gt tmt p)
               | [] => DPanic
               end
           | _ => DPanic
           end
     | _, _ => dec_value E rec f t typ depth rb gt tmt p
     end).
    { intros t p. unfold body. destruct (f_rep f); [|reflexivity]. destruct t as [| | | | |te| | |]; try reflexivity.
      destruct ((typ =? WBytes)%N && f_packed f)%bool; [reflexivity|]. destruct p; try reflexivity.
      destruct (grow E te elems spare); [reflexivity|]. destruct (mallocIfPointer E te v0) as [[t p] put2].
      symmetry. apply dmap_dmap with (f := fun x => VSlice (elems ++ [x]) l). }
    unfold dec_field. destruct (f_oneof f) as [w|].
    - destruct (mallocIfPointer E (f_T f) (fresh E (f_T f))) as [[t p] put1]. rewrite <- dmap_dmap with (f := fun x => VIface (Some (w, Some x))).
      rewrite Eb. reflexivity.
    - destruct (mallocIfPointer E (f_T f) v) as [[t p] put1]. rewrite Eb. reflexivity. }
  rewrite Eh, Et. destruct (f_oneof f) as [w|].
  - rewrite halloc_eq. eapply cell_sim with (tmv := tmv) (y := MIface (Some (w, Some (cell (next h))))) (x0 := hfresh E (f_T f)) (v0 := fresh E (f_T f)); [exact P|exact HH| | | |].
    + intro h1. apply (fresh_owns E WF).
    + exact Logic.I.
    + intros h' A2 x' v' H1 H2 H3. now econstructor; [exact H1|exact H2|].
    + cbn zeta. intros P1 H1 R1. eapply ptr_sim; eauto. intros. eapply BODY; eauto. unfold rb. congruence.
  - eapply ptr_sim; eauto.
Qed.
End Rec.
End Sim.
