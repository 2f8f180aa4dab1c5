(** The lexer of prutalgen cuts a text into the tokens of LexSpec.v. *)
From Coq Require Import List ZArith Bool Lia FMapPositive.
From Verif Require Import AtnTable Atn LexSpec LexDfa.
Import ListNotations.
Open Scope Z_scope.

(* ---------- representatives ---------- *)
Lemma rep_le c : is_char c -> rep c <= c.
Proof. intros [H _]. apply rep_from_le. exact H. Qed.
Lemma rep_ge c : 0 <= rep c.
Proof. apply rep_from_ge. exact bounds_ascending. Qed.
Lemma rep_char c : is_char c -> is_char (rep c).
Proof. intros H. pose proof (rep_le c H). pose proof (rep_ge c). destruct H. split; lia. Qed.

Lemma leb_rep x c : okb x = true -> is_char c -> (x <=? c) = (x <=? rep c).
Proof.
  intros O Hc. pose proof (rep_le c Hc) as L. pose proof (rep_ge c) as G.
  unfold okb in O. apply orb_prop in O as [O|O]; [apply orb_prop in O as [O|O]|].
  - apply Z.leb_le in O. destruct Hc. rewrite !(proj2 (Z.leb_le _ _)); auto; lia.
  - apply Z.ltb_lt in O. destruct Hc. unfold max_char in O.
    rewrite !(proj2 (Z.leb_gt _ _)); auto; lia.
  - apply existsb_exists in O as (y & Hy & E). apply Z.eqb_eq in E. subst y.
    destruct (x <=? c) eqn:E; symmetry.
    + apply Z.leb_le in E. apply Z.leb_le.
      apply (rep_from_in bounds 0 c x bounds_ascending); [now right | exact E].
    + apply Z.leb_gt in E. apply Z.leb_gt. lia.
Qed.
Lemma ltb_rep x c : okb x = true -> is_char c -> (c <? x) = (rep c <? x).
Proof. intros O Hc. rewrite !Z.ltb_antisym. f_equal. now apply leb_rep. Qed.

Lemma contains_rep s c : forallb okb (flat_map (fun v => [fst v; snd v]) s) = true ->
  is_char c -> contains s c = contains s (rep c).
Proof.
  intros O Hc. unfold contains. induction s as [|v s IH]; cbn in *; auto.
  apply andb_prop in O as [O1 O]. apply andb_prop in O as [O2 O].
  rewrite IH; auto. f_equal. f_equal; [now apply leb_rep | now apply ltb_rep].
Qed.

Lemma in_ranges_rep l c : forallb okb (flat_map (fun v => [fst v; snd v + 1]) l) = true ->
  is_char c -> in_ranges l c = in_ranges l (rep c).
Proof.
  intros O Hc. unfold in_ranges. induction l as [|v s IH]; cbn in *; auto.
  apply andb_prop in O as [O1 O]. apply andb_prop in O as [O2 O].
  rewrite IH; auto. f_equal. f_equal; [now apply leb_rep |].
  pose proof (ltb_rep _ c O2 Hc) as E.
  destruct (c <=? snd v) eqn:A, (rep c <=? snd v) eqn:B; auto.
  - apply Z.leb_le in A. apply Z.leb_gt in B.
    rewrite (proj2 (Z.ltb_lt c _)) in E by lia.
    symmetry in E. apply Z.ltb_lt in E. lia.
  - apply Z.leb_gt in A. apply Z.leb_le in B.
    rewrite (proj2 (Z.ltb_lt (rep c) _)) in E by lia.
    apply Z.ltb_lt in E. lia.
Qed.

Lemma matches_char_rep t c : forallb okb (trans_bounds t) = true -> is_char c ->
  matches_char t c = matches_char t (rep c).
Proof.
  intros O Hc. pose proof (rep_char c Hc) as Hr.
  assert (D : forall x, is_char x -> (0 <=? x) && (x <=? max_char) = true).
  { intros x [A B]. unfold max_char. rewrite (proj2 (Z.leb_le _ _) A), (proj2 (Z.leb_le _ _) B). auto. }
  destruct t; cbn [matches_char trans_bounds] in *; auto.
  - cbn in O. apply andb_prop in O as [O1 O]. apply andb_prop in O as [O2 _].
    pose proof (in_ranges_rep [(lo, hi)] c) as E. cbn in E. rewrite !orb_false_r in E.
    apply E; auto. rewrite O1, O2. auto.
  - cbn in O. apply andb_prop in O as [O1 O]. apply andb_prop in O as [O2 _].
    pose proof (in_ranges_rep [(label, label)] c) as E. cbn in E. rewrite !orb_false_r in E.
    assert (F : forall x, (label =? x) = (label <=? x) && (x <=? label)).
    { intros x. destruct (label =? x) eqn:A.
      - apply Z.eqb_eq in A. subst. rewrite Z.leb_refl. auto.
      - apply Z.eqb_neq in A. destruct (label <=? x) eqn:B, (x <=? label) eqn:C; auto.
        apply Z.leb_le in B, C. lia. }
    rewrite !F. apply E; auto. rewrite O1, O2. auto.
  - now apply contains_rep.
  - rewrite !D by auto. cbn. f_equal. now apply contains_rep.
  - rewrite !D by auto. auto.
Qed.

Lemma state_bounds n s : get_state (a_states lexer_atn) n = Some s ->
  forall t, In t (as_trans s) -> forallb okb (trans_bounds t) = true.
Proof.
  unfold get_state. destruct (n <? 0); [discriminate|]. intros H t Ht.
  pose proof table_bounds as B.
  rewrite forallb_forall in B.
  assert (I : In s all_states).
  { unfold all_states. apply PositiveMap.elements_correct in H.
    apply (in_map snd) in H. exact H. }
  specialize (B s I). cbv beta in B. rewrite forallb_forall in B. exact (B t Ht).
Qed.

Lemma reach_edges_rep c t : is_char t -> forall ts cur cs skip,
  (forall e, In e ts -> forallb okb (trans_bounds e) = true) ->
  reach_edges lexer_atn c ts t cur cs skip
  = reach_edges lexer_atn c ts (rep t) cur cs skip.
Proof.
  intros Ht. pose proof (rep_char t Ht) as Hr.
  induction ts as [|e ts IH]; intros cur cs skip O; cbn [reach_edges]; auto.
  rewrite <- (matches_char_rep e t) by (auto; apply O; now left).
  assert (E : (t =? -1) = (rep t =? -1)).
  { destruct Ht, Hr. rewrite !(proj2 (Z.eqb_neq _ _)); auto; lia. }
  assert (O' : forall e0, In e0 ts -> forallb okb (trans_bounds e0) = true)
    by (intros; apply O; now right).
  rewrite <- E. destruct (matches_char e t); auto.
  destruct (closure _ _ _ _ _ _) as [[cs' r]|]; cbn [bind]; auto.
Qed.

Lemma reach_configs_rep t : is_char t -> forall l cs skip,
  reach_configs lexer_atn l t cs skip = reach_configs lexer_atn l (rep t) cs skip.
Proof.
  intros Ht. induction l as [|c l IH]; intros cs skip; cbn [reach_configs]; auto.
  destruct ((c_alt c =? skip) && c_ng c); auto.
  destruct (get_state (a_states lexer_atn) (c_state c)) as [s|] eqn:E; cbn [bind]; auto.
  rewrite <- (reach_edges_rep c t Ht) by (eapply state_bounds; eauto).
  destruct (reach_edges _ _ _ _ _ _ _) as [[cs' sk]|]; cbn [bind]; auto.
Qed.
Lemma reach_rep l t : is_char t -> reach lexer_atn l t = reach lexer_atn l (rep t).
Proof. intros H. unfold reach. now rewrite reach_configs_rep. Qed.

Lemma deriv_rep r c : forallb okb (re_bounds r) = true -> is_char c ->
  deriv c r = deriv (rep c) r.
Proof.
  intros O Hc. pose proof (rep_char c Hc) as Hr.
  induction r; cbn [deriv re_bounds] in *; auto.
  - now rewrite <- in_ranges_rep.
  - rewrite <- (in_ranges_rep l c) by auto.
    rewrite !(proj2 (charb_ok _)); auto.
  - rewrite forallb_app in O. apply andb_prop in O as [O1 O2]. rewrite IHr1, IHr2; auto.
  - rewrite forallb_app in O. apply andb_prop in O as [O1 O2]. rewrite IHr1, IHr2; auto.
  - rewrite IHr; auto.
Qed.
Lemma dvec_rep v c : forallb (fun q => forallb okb (re_bounds (snd q))) v = true -> is_char c ->
  dvec c v = dvec (rep c) v.
Proof.
  intros O Hc. induction v as [|[k r] v IH]; cbn [dvec forallb snd] in *; auto.
  apply andb_prop in O as [O1 O2]. rewrite <- (deriv_rep r c) by auto. rewrite IH; auto.
Qed.

(* ---------- a pair steps alike on both sides ---------- *)
Lemma local_parts p : local_ok p = true -> same_accept p = true /\ ends p = true
  /\ forallb (fun q => forallb okb (re_bounds (snd q))) (snd p) = true
  /\ follow_ok (snd p) = true /\ avoid_ok (snd p) = true.
Proof. unfold local_ok. rewrite !andb_true_iff. tauto. Qed.

Definition sound (seen : list pair) : Prop :=
  (forall p, In p seen -> good seen p) /\ inj (configs_of seen).
Lemma explored_all : exists seen, In start_pair seen /\ sound seen /\ told_apart seen = true.
Proof.
  pose proof explored as E.
  destruct (explore 400 [start_pair] [start_pair]) as [r|] eqn:F; [|discriminate].
  apply andb_prop in E as [E1 E2]. apply no_dup_inj in E2.
  apply explore_spec in F as [A B].
  - exists r. split; [apply A; now left | split; [split; [exact B | exact E2] | exact E1]].
  - intros p [<-|[]]. left. now left.
Qed.
Lemma explored_pairs : exists seen, In start_pair seen /\ sound seen.
Proof.
  destruct explored_all as (seen & A & B & _). exists seen. split; [exact A | exact B].
Qed.
Lemma start_is seen : sound seen -> In start_pair seen ->
  start_configs lexer_atn = Some (fst start_pair).
Proof.
  intros [_ J] H.
  assert (C : forall c, In c (fst start_pair) -> In c (configs_of seen))
    by (intros c Hc; exact (configs_of_in seen start_pair c H Hc)).
  clear H. destruct start_ok as [N _]. unfold start_pair in *. cbn [fst] in *.
  destruct (sstart_configs lexer_atn) as [l|] eqn:E; [|congruence].
  exact (start_configs_tag _ _ _ J E C).
Qed.
Lemma ends_is seen p : sound seen -> In p seen -> reach lexer_atn (fst p) (-1) = Some [].
Proof.
  intros [G J] H. destruct (G p H) as [L _]. apply local_parts in L as (_ & L & _).
  unfold ends in L. destruct (sreach lexer_atn (fst p) (-1)) as [[|x r]|] eqn:E;
    [|discriminate|discriminate].
  apply (reach_tag _ _ _ _ _ J E). intros x [].
Qed.

Lemma succs_in p cs : forall l c, succs p cs = Some l -> In c cs ->
  exists x, succ p c = Some x /\ incl x l.
Proof.
  induction cs as [|d cs IH]; cbn; intros l c H Hin; [easy|].
  destruct (succ p d) as [x|] eqn:E; [|discriminate].
  destruct (succs p cs) as [y|] eqn:F; [|discriminate]. injection H as <-.
  destruct Hin as [->|Hin].
  - exists x. split; auto. apply incl_appl, incl_refl.
  - destruct (IH y c eq_refl Hin) as (x0 & E0 & I0). exists x0. split; auto.
    apply incl_appr, I0.
Qed.

Lemma pair_step seen p c : sound seen -> In p seen -> is_char c ->
  (reach lexer_atn (fst p) c = Some [] /\ dvec c (snd p) = [])
  \/ (exists l v, reach lexer_atn (fst p) c = Some l /\ dvec c (snd p) = v /\
        l <> [] /\ v <> [] /\ In (l, v) seen).
Proof.
  intros [G J] Hp Hc. destruct (G p Hp) as [L (l & E & I)].
  apply local_parts in L as (_ & _ & L & _ & _).
  rewrite (reach_rep _ c Hc), (dvec_rep _ c L Hc).
  assert (Hin : In (rep c) (0 :: bounds)) by (apply rep_in).
  destruct (succs_in p _ l (rep c) E Hin) as (x & Ex & Ix). unfold succ in Ex.
  destruct (sreach lexer_atn (fst p) (rep c)) as [[|d m]|] eqn:R; [| |discriminate].
  - rewrite (reach_tag _ _ _ _ _ J R) by (intros x0 []).
    destruct (dvec (rep c) (snd p)); [auto|discriminate].
  - destruct (dvec (rep c) (snd p)) as [|e v]; [discriminate|]. injection Ex as <-.
    assert (Hs : In (d :: m, e :: v) seen) by (apply I, Ix; now left).
    right. exists (d :: m), (e :: v). split; [|repeat split; try discriminate; exact Hs].
    apply (reach_tag _ _ _ _ _ J R). intros x Hx. exact (configs_of_in seen _ x Hs Hx).
Qed.

(* ---------- running the kinds over a text ---------- *)
Fixpoint vrun (v : vec) (inp : text) (n : nat) (prev : option (nat * Z))
  : option (nat * Z) * nat :=
  match inp with
  | [] => (prev, n)
  | c :: inp' =>
      match dvec c v with
      | [] => (prev, n)
      | v' => vrun v' inp' (S n)
                (match vaccept v' with Some k => Some (S n, k) | None => prev end)
      end
  end.

Definition agree (a : option (nat * accept)) (b : option (nat * Z)) : Prop :=
  match a, b with
  | None, None => True
  | Some (n, (k, e)), Some (n', k') => n = n' /\ k = k' /\ channel e = channel_of k
  | _, _ => False
  end.

Lemma exec_vrun seen : sound seen ->
  forall inp p n prev vprev, is_text inp -> In p seen -> agree prev vprev ->
  exists a m, exec lexer_atn (fst p) inp n prev = Some (a, m)
    /\ agree a (fst (vrun (snd p) inp n vprev)) /\ m = snd (vrun (snd p) inp n vprev).
Proof.
  intros G. induction inp as [|c inp IH]; intros p n prev vprev Ht Hp Ha; cbn [exec vrun].
  - rewrite (ends_is seen p G Hp). cbn [bind]. eauto.
  - inversion Ht as [|? ? Hc Ht']; subst.
    destruct (pair_step seen p c G Hp Hc) as [[E1 E2]|(l & v & E1 & E2 & N1 & N2 & Hin)].
    + rewrite E1, E2. cbn [bind]. eauto.
    + rewrite E1, E2. cbn [bind]. destruct l as [|d l]; [congruence|].
      destruct v as [|e v]; [congruence|].
      destruct (proj1 G _ Hin) as [L _]. apply local_parts in L as (L & _ & _ & _ & _).
      unfold same_accept in L. cbn [fst snd] in L.
      destruct (accepts lexer_atn (d :: l)) as [[[k ex]|]|]; cbn [bind];
        destruct (vaccept (e :: v)) as [k'|]; try discriminate.
      * apply andb_prop in L as [L1 L2]. apply Z.eqb_eq in L1, L2. subst k'.
        apply (IH (d :: l, e :: v)); auto. cbn. auto.
      * apply (IH (d :: l, e :: v)); auto.
Qed.

(* ---------- the run finds the longest token ---------- *)
Definition dvecs (v : vec) (w : text) : vec := fold_left (fun v c => dvec c v) w v.
Lemma dvecs_ok w : forall v k x, vmatches (dvecs v w) k x <-> vmatches v k (w ++ x).
Proof.
  induction w as [|c w IH]; intros v k x; cbn; [reflexivity|].
  change (fold_left (fun v c => dvec c v) w (dvec c v)) with (dvecs (dvec c v) w).
  rewrite IH, dvec_ok. reflexivity.
Qed.

(* the kinds of a vector ascend *)
Fixpoint asc (b : Z) (v : vec) : Prop :=
  match v with [] => True | (k, _) :: r => b < k /\ asc k r end.
Lemma asc_weaken v : forall a b, a <= b -> asc b v -> asc a v.
Proof. destruct v as [|[k r] v]; cbn; auto. intros a b H [H1 H2]. split; auto. lia. Qed.
Lemma asc_dvec c v : forall b, asc b v -> asc b (dvec c v).
Proof.
  induction v as [|[k r] v IH]; cbn [asc dvec]; auto. intros b [H1 H2].
  specialize (IH k H2).
  destruct (deriv c r); cbn [asc]; auto. eapply asc_weaken; [|exact IH]. lia.
Qed.
Lemma asc_in v : forall b k r, asc b v -> In (k, r) v -> b < k.
Proof.
  induction v as [|[k0 r0] v IH]; cbn; intros b k r H Hin; [easy|]. destruct H as [H1 H2].
  destruct Hin as [E|Hin]; [injection E as <- <-; auto|]. specialize (IH _ _ _ H2 Hin). lia.
Qed.

Lemma vaccept_some v : forall b k, asc b v -> vaccept v = Some k ->
  vmatches v k [] /\ forall k', k' < k -> ~ vmatches v k' [].
Proof.
  induction v as [|[k0 r0] v IH]; cbn [vaccept asc]; intros b k Ha H; [discriminate|].
  destruct Ha as [H1 H2]. destruct (nullable r0) eqn:E.
  - injection H as <-. split.
    + exists r0. split; [now left | now apply nullable_ok].
    + intros k' Hlt (r & [Er|Hin] & _).
      * injection Er as <- _. lia.
      * pose proof (asc_in _ _ _ _ H2 Hin). lia.
  - destruct (IH _ _ H2 H) as [(r & Hr & M) B]. split.
    + exists r. split; [now right|auto].
    + intros k' Hlt (r' & [Er|Hin] & M').
      * injection Er as <- <-. apply nullable_ok in M'. congruence.
      * apply (B k' Hlt). exists r'. auto.
Qed.
Lemma vaccept_none v : vaccept v = None -> forall k, ~ vmatches v k [].
Proof.
  induction v as [|[k0 r0] v IH]; cbn [vaccept]; intros H k (r & Hin & M); [easy|].
  destruct (nullable r0) eqn:E; [discriminate|].
  destruct Hin as [Er|Hin].
  - injection Er as <- <-. apply nullable_ok in M. congruence.
  - apply (IH H k). exists r. auto.
Qed.

(* [first v k w]: k is the first kind of v that has w *)
Definition vfirst (v : vec) (k : Z) (w : text) : Prop :=
  vmatches v k w /\ forall k', k' < k -> ~ vmatches v k' w.

Lemma vrun_spec inp : forall v0 done v n prev b,
  v = dvecs v0 done -> n = length done -> asc b v ->
  (* what is known so far *)
  match prev with
  | None => forall k x y, done = x ++ y -> x <> [] -> ~ vmatches v0 k x
  | Some (m, k) => (0 < m <= n)%nat /\ vfirst v0 k (firstn m done)
      /\ forall k' x y, done = x ++ y -> (m < length x)%nat -> ~ vmatches v0 k' x
  end ->
  match fst (vrun v inp n prev) with
  | None => forall k x y, done ++ inp = x ++ y -> x <> [] -> ~ vmatches v0 k x
  | Some (m, k) => (0 < m <= n + length inp)%nat /\ vfirst v0 k (firstn m (done ++ inp))
      /\ forall k' x y, done ++ inp = x ++ y -> (m < length x)%nat -> ~ vmatches v0 k' x
  end.
Proof.
  induction inp as [|c inp IH]; intros v0 done v n prev b Hv Hn Ha K; cbn [vrun].
  - cbn. rewrite app_nil_r. destruct prev as [[m k]|]; auto.
    rewrite <- plus_n_O. auto.
  - destruct (dvec c v) as [|q v'] eqn:E.
    + cbn [fst].
      assert (D : forall k x, ~ vmatches v0 k (done ++ c :: x)).
      { intros k x M. replace (done ++ c :: x) with ((done ++ [c]) ++ x) in M
          by (rewrite <- app_assoc; auto).
        apply dvecs_ok in M. unfold dvecs in M. rewrite fold_left_app in M. cbn in M.
        change (fold_left (fun v c => dvec c v) done v0) with (dvecs v0 done) in M.
        rewrite <- Hv, E in M. destruct M as (r & [] & _). }
      assert (D2 : forall k x y, done ++ c :: inp = x ++ y ->
                   vmatches v0 k x -> exists z, done = x ++ z).
      { intros k x y Exy M. apply app_eq_app in Exy as (l & [[E1 E2]|[E1 E2]]).
        - eauto.
        - destruct l as [|d l]; [exists []; rewrite app_nil_r in *; auto|].
          cbn in E2. injection E2 as <- _. subst x. exfalso. eapply D; eauto. }
      destruct prev as [[m k]|].
      * destruct K as (K1 & K2 & K3). split; [lia|]. split.
        -- rewrite firstn_app. replace (m - length done)%nat with O by lia.
           cbn. rewrite app_nil_r. exact K2.
        -- intros k' x y Exy Hl M. destruct (D2 _ _ _ Exy M) as [z Ez].
           apply (K3 k' x z Ez Hl M).
      * intros k x y Exy Hx M. destruct (D2 _ _ _ Exy M) as [z Ez].
        apply (K k x z Ez Hx M).
    + replace (done ++ c :: inp) with ((done ++ [c]) ++ inp) by (rewrite <- app_assoc; auto).
      assert (Hv' : q :: v' = dvecs v0 (done ++ [c])).
      { unfold dvecs. rewrite fold_left_app. cbn.
        change (fold_left (fun v c => dvec c v) done v0) with (dvecs v0 done).
        rewrite <- Hv. auto. }
      assert (Ha' : asc b (q :: v')) by (rewrite <- E; now apply asc_dvec).
      assert (Hn' : S n = length (done ++ [c])) by (rewrite app_length; cbn; lia).
      replace (n + length (c :: inp))%nat with (S n + length inp)%nat by (cbn; lia).
      apply (IH v0 (done ++ [c]) (q :: v') (S n) _ b Hv' Hn' Ha').
      assert (W : forall k x, vmatches (q :: v') k x <-> vmatches v0 k ((done ++ [c]) ++ x))
        by (intros; rewrite Hv'; apply dvecs_ok).
      assert (P : forall x y : text, done ++ [c] = x ++ y -> x = done ++ [c] \/ exists z, done = x ++ z).
      { intros x y Exy. destruct y as [|d y] using rev_ind.
        - rewrite app_nil_r in Exy. auto.
        - right. rewrite app_assoc in Exy. apply app_inj_tail in Exy as [Exy _]. eauto. }
      destruct (vaccept (q :: v')) as [k|] eqn:EV.
      * split; [lia|].
        rewrite firstn_all2 by lia.
        destruct (vaccept_some _ _ _ Ha' EV) as [V1 V2].
        split; [split|].
        -- apply W in V1. rewrite app_nil_r in V1. exact V1.
        -- intros k' Hlt M. apply (V2 k' Hlt). apply W. now rewrite app_nil_r.
        -- intros k' x y Exy Hl. exfalso.
           apply (f_equal (@length Z)) in Exy. rewrite (app_length x) in Exy. lia.
      * assert (NV : forall k, ~ vmatches v0 k (done ++ [c])).
        { intros k M. apply (vaccept_none _ EV k). apply W. now rewrite app_nil_r. }
        destruct prev as [[m k]|].
        -- destruct K as (K1 & K2 & K3). split; [lia|]. split.
           ++ rewrite firstn_app. replace (m - length done)%nat with O by lia.
              cbn. rewrite app_nil_r. exact K2.
           ++ intros k' x y Exy Hl M. destruct (P _ _ Exy) as [->|[z Ez]].
              ** eapply NV; eauto.
              ** eapply K3; eauto.
        -- intros k x y Exy Hx M. destruct (P _ _ Exy) as [->|[z Ez]].
           ++ eapply NV; eauto.
           ++ eapply K; eauto.
Qed.

(* ---------- one token ---------- *)
Lemma kinds_asc : asc 0 kinds.
Proof. cbn. lia. Qed.
Lemma of_kind_vmatches k t : of_kind k t <-> vmatches kinds k t.
Proof. reflexivity. Qed.

Lemma kinds_nonempty k : ~ of_kind k [].
Proof.
  assert (H : vaccept kinds = None) by (vm_compute; reflexivity).
  apply (vaccept_none _ H k).
Qed.

Lemma match_token_spec inp : is_text inp ->
  match match_token lexer_atn inp with
  | Some (OToken len k ch) =>
      exists t rest, inp = t ++ rest /\ len = length t /\ front_token k t rest
        /\ ch = channel_of k
  | Some OEof => inp = []
  | Some (OError n) => inp <> [] /\ (0 < n <= length inp)%nat
      /\ forall k t rest, inp = t ++ rest -> ~ of_kind k t
  | None => False
  end.
Proof.
  intros Ht. unfold match_token.
  destruct explored_pairs as (seen & Hs & G).
  rewrite (start_is seen G Hs). cbn [bind].
  destruct start_ok as [_ S2]. rewrite S2. cbn [bind].
  destruct (exec_vrun seen G inp start_pair 0 None None Ht Hs I) as (a & m & E1 & E2 & E3).
  rewrite E1. cbn [bind]. change (snd start_pair) with kinds in *.
  assert (V : match fst (vrun kinds inp 0 None) with
    | None => forall k x y, [] ++ inp = x ++ y -> x <> [] -> ~ vmatches kinds k x
    | Some (m, k) => (0 < m <= 0 + length inp)%nat /\ vfirst kinds k (firstn m ([] ++ inp))
        /\ forall k' x y, [] ++ inp = x ++ y -> (m < length x)%nat -> ~ vmatches kinds k' x
    end).
  { apply (vrun_spec inp kinds [] kinds 0%nat None 0 eq_refl eq_refl kinds_asc).
    intros k x y Exy Hx. symmetry in Exy. apply app_eq_nil in Exy as [-> _]. congruence. }
  destruct a as [[len [k e]]|]; destruct (fst (vrun kinds inp 0 None)) as [[len' k']|];
    cbn [agree] in E2; try contradiction.
  - destruct E2 as (-> & -> & Ech). destruct V as (V1 & [V2 V3] & V4). cbn [app] in *.
    exists (firstn len' inp), (skipn len' inp).
    split; [symmetry; apply firstn_skipn|]. split; [rewrite firstn_length; lia|].
    split; auto. split; [|split; [split|]].
    + intros C. rewrite C in V2. apply (kinds_nonempty _ V2).
    + exact V2.
    + exact V3.
    + intros x y k0 Er Hx M.
      apply (V4 k0 (firstn len' inp ++ x) y); auto.
      * rewrite <- app_assoc, <- Er. symmetry. apply firstn_skipn.
      * rewrite app_length, firstn_length. destruct x; [congruence|]. cbn. lia.
  - destruct inp as [|c inp]; [auto|]. split; [discriminate|].
    split.
    + destruct (m <? length (c :: inp))%nat eqn:Em.
      * apply PeanoNat.Nat.ltb_lt in Em. lia.
      * apply PeanoNat.Nat.ltb_ge in Em. split; [cbn [length] in Em; lia|].
        rewrite E3. clear.
        assert (H : forall inp v n prev, (snd (vrun v inp n prev) <= n + length inp)%nat).
        { induction inp0 as [|d i IH]; intros v n prev; cbn [vrun]; [cbn; lia|].
          destruct (dvec d v); [cbn; lia|].
          specialize (IH (p :: v0) (S n) (match vaccept (p :: v0) with
             | Some k => Some (S n, k) | None => prev end)). cbn in *. lia. }
        apply (H (c :: inp) kinds 0%nat None).
    + intros k t rest Et M. cbn [app] in V. destruct t as [|d t].
      * apply (kinds_nonempty _ M).
      * apply (V k (d :: t) rest Et); [discriminate|exact M].
Qed.

(* ---------- all tokens ---------- *)
Definition mk_item (p : Z * text) : item := ITok (fst p) (channel_of (fst p)) (snd p).

Lemma front_token_unique k t rest k' t' rest' :
  front_token k t rest -> front_token k' t' rest' -> t ++ rest = t' ++ rest' ->
  k = k' /\ t = t' /\ rest = rest'.
Proof.
  intros (N1 & [F1 F2] & L1) (N2 & [G1 G2] & L2) E.
  apply app_eq_app in E as (l & [[E1 E2]|[E1 E2]]).
  - destruct l as [|c l].
    + rewrite app_nil_r in E1. subst t'. cbn in E2. subst. repeat split; auto.
      destruct (Z.lt_trichotomy k k') as [H|[H|H]]; auto; exfalso.
      * apply (G2 k H F1).
      * apply (F2 k' H G1).
    + exfalso. apply (L2 (c :: l) rest k); auto; [discriminate|]. now rewrite <- E1.
  - destruct l as [|c l].
    + rewrite app_nil_r in E1. subst t'. cbn in E2. subst. repeat split; auto.
      destruct (Z.lt_trichotomy k k') as [H|[H|H]]; auto; exfalso.
      * apply (G2 k H F1).
      * apply (F2 k' H G1).
    + exfalso. apply (L1 (c :: l) rest' k'); auto; [discriminate|]. now rewrite <- E1.
Qed.

Lemma tokenized_unique s l : tokenized s l -> forall l', tokenized s l' -> l = l'.
Proof.
  induction 1 as [|k t rest l F T IH]; intros l' T'.
  - inversion T' as [|k' t' rest' l0 F' T0 E]; auto.
    apply app_eq_nil in E as [-> _]. destruct F' as (N & _). congruence.
  - inversion T' as [E|k' t' rest' l0 F' T0 E].
    + symmetry in E. apply app_eq_nil in E as [-> _]. destruct F as (N & _). congruence.
    + subst. destruct (front_token_unique _ _ _ _ _ _ F' F E) as (-> & -> & ->).
      f_equal. auto.
Qed.

Lemma tokenized_concat s l : tokenized s l -> s = concat (map snd l).
Proof. induction 1; cbn; auto. now f_equal. Qed.

(* every run ends, the items give the text back, and the items of a run
   without errors are the tokens of the text *)
Definition item_text (i : item) : text :=
  match i with ITok _ _ t => t | IErr d => d end.
Definition is_error (i : item) : bool :=
  match i with IErr _ => true | _ => false end.

Lemma tokens_spec fuel : forall inp hit, is_text inp -> (length inp < fuel)%nat ->
  (hit = true -> inp = []) ->
  exists items, tokens fuel lexer_atn inp hit = Some (items ++ [eof_token])
    /\ concat (map item_text items) = inp
    /\ (existsb is_error items = false ->
        exists l, items = map mk_item l /\ tokenized inp l)
    /\ (existsb is_error items = true -> forall l, ~ tokenized inp l).
Proof.
  induction fuel as [|fuel IH]; intros inp hit Ht Hl Hh; [lia|]. cbn [tokens].
  destruct hit.
  - rewrite (Hh eq_refl). exists []. cbn. repeat split; auto.
    + intros _. exists []. split; auto. constructor.
    + discriminate.
  - pose proof (match_token_spec inp Ht) as M.
    destruct (match_token lexer_atn inp) as [[len k ch| |n]|]; cbn [bind]; [| | |contradiction].
    + destruct M as (t & rest & -> & -> & F & ->).
      rewrite skipn_app, skipn_all, PeanoNat.Nat.sub_diag, skipn_O. cbn [app].
      rewrite firstn_app, firstn_all, PeanoNat.Nat.sub_diag, firstn_O, app_nil_r.
      assert (Nt : t <> []) by apply F.
      assert (Hr : is_text rest) by (apply Forall_app in Ht; apply Ht).
      assert (Hlen : (length rest < fuel)%nat).
      { rewrite app_length in Hl. destruct t; [congruence|]. cbn in Hl. lia. }
      destruct (IH rest (match rest with [] => true | _ => false end) Hr Hlen)
        as (items & E1 & E2 & E3 & E4); [destruct rest; [auto|discriminate]|].
      rewrite E1. cbn [bind].
      exists (ITok k (channel_of k) t :: items). cbn. rewrite E2. repeat split; auto.
      * intros He. destruct (E3 He) as (l & -> & T). exists ((k, t) :: l).
        split; auto. now constructor.
      * intros He l T. inversion T as [Ee|k' t' rest' l0 F' T0 Ee].
        -- symmetry in Ee. apply app_eq_nil in Ee as [-> _]. congruence.
        -- destruct (front_token_unique _ _ _ _ _ _ F' F Ee) as (-> & -> & ->).
           eapply E4; eauto.
    + subst inp. exists []. cbn. repeat split; auto.
      * intros _. exists []. split; auto. constructor.
      * discriminate.
    + destruct M as (Ni & Hn & Nk).
      assert (Hr : is_text (skipn n inp)).
      { rewrite <- (firstn_skipn n inp) in Ht. apply Forall_app in Ht. apply Ht. }
      assert (Hlen : (length (skipn n inp) < fuel)%nat) by (rewrite skipn_length; lia).
      destruct (IH (skipn n inp) (match skipn n inp with [] => true | _ => false end) Hr Hlen)
        as (items & E1 & E2 & E3 & E4); [destruct (skipn n inp); [auto|discriminate]|].
      rewrite E1. cbn [bind].
      exists (IErr (firstn n inp) :: items). cbn. rewrite E2, firstn_skipn.
      repeat split; auto; [discriminate|].
      intros _ l T. inversion T as [Ee|k' t' rest' l0 F' T0 Ee].
      * congruence.
      * apply (Nk k' t' rest'); auto. apply F'.
Qed.

Lemma lex_spec inp : is_text inp ->
  exists items, lex_with lexer_atn inp = Some (items ++ [eof_token])
    /\ concat (map item_text items) = inp
    /\ (existsb is_error items = false ->
        exists l, items = map mk_item l /\ tokenized inp l)
    /\ (existsb is_error items = true -> forall l, ~ tokenized inp l).
Proof. intros H. apply tokens_spec; auto. discriminate. Qed.

(* ---------- the same lexer over the kinds, to compute examples ---------- *)
Definition vmatch (inp : text) : outcome :=
  let (prev, n) := vrun kinds inp 0 None in
  match prev with
  | Some (len, k) => OToken len k (channel_of k)
  | None =>
      match inp with
      | [] => OEof
      | _ => OError (if (n <? length inp)%nat then S n else n)
      end
  end.
Fixpoint vtokens (fuel : nat) (inp : text) (hit : bool) : option (list item) :=
  match fuel with
  | O => None
  | S fuel' =>
      if hit then Some [eof_token]
      else
        match vmatch inp with
        | OEof => Some [eof_token]
        | OToken len tty ch =>
            let rest := skipn len inp in
            match vtokens fuel' rest (match rest with [] => true | _ => false end) with
            | Some r => Some (ITok tty ch (firstn len inp) :: r)
            | None => None
            end
        | OError k =>
            let rest := skipn k inp in
            match vtokens fuel' rest (match rest with [] => true | _ => false end) with
            | Some r => Some (IErr (firstn k inp) :: r)
            | None => None
            end
        end
  end.
Lemma match_vmatch inp : is_text inp -> match_token lexer_atn inp = Some (vmatch inp).
Proof.
  intros Ht. unfold match_token, vmatch.
  destruct explored_pairs as (seen & Hs & G).
  rewrite (start_is seen G Hs). cbn [bind].
  destruct start_ok as [_ S2]. rewrite S2. cbn [bind].
  destruct (exec_vrun seen G inp start_pair 0 None None Ht Hs I) as (a & m & E1 & E2 & E3).
  rewrite E1. cbn [bind]. change (snd start_pair) with kinds in *.
  destruct (vrun kinds inp 0 None) as [b n]. cbn [fst snd] in *. subst m.
  destruct a as [[len [k e]]|]; destruct b as [[len' k']|]; cbn [agree] in E2; try contradiction.
  - destruct E2 as (-> & -> & ->). reflexivity.
  - destruct inp; reflexivity.
Qed.
Lemma tokens_vtokens fuel : forall inp hit, is_text inp ->
  tokens fuel lexer_atn inp hit = vtokens fuel inp hit.
Proof.
  induction fuel as [|fuel IH]; intros inp hit Ht; cbn [tokens vtokens]; [reflexivity|].
  destruct hit; [reflexivity|]. rewrite (match_vmatch inp Ht). cbn [bind].
  assert (H : forall n, is_text (skipn n inp)).
  { intros n. rewrite <- (firstn_skipn n inp) in Ht. apply Forall_app in Ht. apply Ht. }
  destruct (vmatch inp) as [len tty ch| |k]; [|reflexivity|]; rewrite IH by apply H; reflexivity.
Qed.
Lemma lex_vtokens inp : is_text inp ->
  lex_with lexer_atn inp = vtokens (S (length inp)) inp false.
Proof. apply tokens_vtokens. Qed.
