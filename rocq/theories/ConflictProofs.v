(** Proofs about conflict resolution and about which declarations are generated. *)
From Coq Require Import Strings.String Init.Byte Lia ZifyBool ZifyNat ZifyN.
From Verif Require Import Base GoStr StrFacts GenField GenSpec GenNames NameSpec NameProofs.
Import StringSyntax.
Open Scope nat_scope.

Lemma used_spec : forall l n, used l n = true <-> In n l.
Proof.
  intros. unfold used. rewrite existsb_exists. split.
  - intros (x & Hx & E). destruct (str_eqb_spec x n); [subst; exact Hx|discriminate].
  - intro H. exists n. split; [exact H|]. apply str_eqb_refl.
Qed.
Lemma used_false : forall l n, used l n = false <-> ~ In n l.
Proof. intros. rewrite <- used_spec. destruct (used l n); intuition congruence. Qed.

Lemma longest_in : forall l n, In n l -> length n <= longest l.
Proof.
  induction l as [|m l IH]; intros n H; [destruct H|]. cbn. destruct H as [->|H]; [lia|].
  specialize (IH n H). unfold longest in IH. lia.
Qed.

(** The loop ends, with as few underscores as needed. *)
Lemma add_underscores_spec : forall bad B n fuel,
  (forall m, bad m = true -> length m <= B) -> S B < length n + fuel -> 0 < fuel ->
  exists k, add_underscores bad fuel n = Some (n ++ repeat x5f k) /\
            bad (n ++ repeat x5f k) = false /\
            (forall j, j < k -> bad (n ++ repeat x5f j) = true).
Proof.
  intros bad B n fuel HB. revert n. induction fuel as [|fuel IH]; intros n Hf Hp; [lia|].
  cbn [add_underscores]. destruct (bad n) eqn:E.
  - pose proof (HB n E).
    destruct (IH (n ++ bs "_")) as (k & E1 & E2 & E3).
    + rewrite app_length. cbn. lia.
    + lia.
    + assert (Hs : forall j, (n ++ bs "_") ++ repeat x5f j = n ++ repeat x5f (S j)).
      { intro j. rewrite <- app_assoc. reflexivity. }
      exists (S k). rewrite <- Hs. split; [exact E1|]. split; [exact E2|].
      intros [|j] Hj; [cbn; rewrite app_nil_r; exact E|]. rewrite <- Hs. apply E3. lia.
  - exists 0. cbn. rewrite app_nil_r. split; [reflexivity|]. split; [exact E|]. lia.
Qed.

Lemma field_loop : forall u n, exists k,
  let r := n ++ repeat x5f k in
  add_underscores (fun n => used u n || used u (Getter n)) (rounds u) n = Some r /\
  ~ In r u /\ ~ In (Getter r) u /\
  (forall j, j < k -> In (n ++ repeat x5f j) u \/ In (Getter (n ++ repeat x5f j)) u).
Proof.
  intros u n.
  destruct (add_underscores_spec (fun n => used u n || used u (Getter n)) (longest u) n (rounds u)) as (k & E & F & G).
  - intros m H. apply Bool.orb_true_iff in H. destruct H as [H|H]; apply used_spec, longest_in in H; [exact H|].
    unfold Getter in H. rewrite app_length in H. lia.
  - unfold rounds. lia.
  - unfold rounds. lia.
  - exists k. cbv zeta. split; [exact E|]. apply Bool.orb_false_iff in F. destruct F as [F1 F2].
    apply used_false in F1. apply used_false in F2. split; [exact F1|]. split; [exact F2|].
    intros j Hj. specialize (G j Hj). apply Bool.orb_true_iff in G.
    destruct G as [G|G]; apply used_spec in G; auto.
Qed.
Lemma plain_loop : forall u n, exists k,
  let r := n ++ repeat x5f k in
  add_underscores (used u) (rounds u) n = Some r /\ ~ In r u /\
  (forall j, j < k -> In (n ++ repeat x5f j) u).
Proof.
  intros u n. destruct (add_underscores_spec (used u) (longest u) n (rounds u)) as (k & E & F & G).
  - intros m H. apply used_spec, longest_in in H. exact H.
  - unfold rounds. lia.
  - unfold rounds. lia.
  - exists k. cbv zeta. split; [exact E|]. apply used_false in F. split; [exact F|].
    intros j Hj. apply used_spec, G, Hj.
Qed.

Definition names_of (r : rfield) : list bytes :=
  rf_go r :: Getter (rf_go r) :: match rf_oneof r with Some (_, g) => [g] | None => [] end.
Fixpoint all_names (l : list rfield) : list bytes :=
  match l with [] => [] | r :: l' => names_of r ++ all_names l' end.

Lemma Getter_ne : forall n, Getter n <> n.
Proof. intros n E. apply (f_equal (@length byte)) in E. unfold Getter in E. rewrite app_length in E. cbn in E. lia. Qed.
Lemma Getter_inj : forall a b, Getter a = Getter b -> a = b.
Proof. intros a b E. unfold Getter in E. cbn in E. injection E. auto. Qed.

(** What resolve_fields computes: for every field, its name; for a field that is the first
    of its oneof, the name of the oneof. *)
Inductive resolved : list bytes -> list nat -> list bytes -> list pfd -> list rfield -> Prop :=
| rs_nil u seen oo : resolved u seen oo [] []
| rs_plain u seen oo f l n r :
    underscored (GoCamelCase (pf_name f)) n -> ~ In n u -> ~ In (Getter n) u ->
    (~ In (GoCamelCase (pf_name f)) u -> ~ In (Getter (GoCamelCase (pf_name f))) u -> n = GoCamelCase (pf_name f)) ->
    (forall o, pf_one f = Some o -> In o seen) ->
    resolved (n :: Getter n :: u) seen oo l r ->
    resolved u seen oo (f :: l) (mkRF n None :: r)
| rs_first u seen oo f l n o g r :
    underscored (GoCamelCase (pf_name f)) n -> ~ In n u -> ~ In (Getter n) u ->
    (~ In (GoCamelCase (pf_name f)) u -> ~ In (Getter (GoCamelCase (pf_name f))) u -> n = GoCamelCase (pf_name f)) ->
    pf_one f = Some o -> ~ In o seen ->
    underscored (GoCamelCase (nth o oo [])) g -> ~ In g (n :: Getter n :: u) ->
    (~ In (GoCamelCase (nth o oo [])) (n :: Getter n :: u) -> g = GoCamelCase (nth o oo [])) ->
    resolved (g :: n :: Getter n :: u) (o :: seen) oo l r ->
    resolved u seen oo (f :: l) (mkRF n (Some (o, g)) :: r).

Lemma existsb_nat : forall o l, existsb (Nat.eqb o) l = true <-> In o l.
Proof.
  intros. rewrite existsb_exists. split.
  - intros (x & Hx & E). apply Nat.eqb_eq in E. subst. exact Hx.
  - intro H. exists o. split; [exact H|apply Nat.eqb_refl].
Qed.

Lemma repeat_0 : forall k n (P : Prop), (forall j, j < k -> P) -> ~ P -> n ++ repeat x5f k = n.
Proof. intros [|k] n P H HP; [cbn; apply app_nil_r|]. destruct HP. apply (H 0). lia. Qed.

Lemma resolve_fields_spec : forall l u seen oo, exists r,
  resolve_fields u seen oo l = Some r /\ resolved u seen oo l r.
Proof.
  induction l as [|f l IH]; intros u seen oo; cbn [resolve_fields]; [eexists; split; [reflexivity|constructor]|].
  destruct (field_loop u (GoCamelCase (pf_name f))) as (k & E & F1 & F2 & G). cbv zeta in *. rewrite E. cbv beta iota zeta.
  set (n := GoCamelCase (pf_name f) ++ repeat x5f k : bytes) in *. change (n :: Getter n :: u) with (@cons bytes n (Getter n :: u)).
  assert (Hu : underscored (GoCamelCase (pf_name f)) n) by (exists k; reflexivity).
  assert (Hmin : ~ In (GoCamelCase (pf_name f)) u -> ~ In (Getter (GoCamelCase (pf_name f))) u -> n = GoCamelCase (pf_name f)).
  { intros A B. destruct k as [|k]; [unfold n; cbn; apply app_nil_r|].
    destruct (G 0 ltac:(lia)) as [G'|G']; cbn in G'; rewrite app_nil_r in G'; contradiction. }
  destruct (pf_one f) as [o|] eqn:Eo.
  - destruct (existsb (Nat.eqb o) seen) eqn:Es.
    + destruct (IH (@cons bytes n (Getter n :: u)) seen oo) as (r & -> & R). eexists. split; [reflexivity|].
      apply rs_plain; auto. intros o' H. rewrite Eo in H. injection H as <-. apply existsb_nat, Es.
    + destruct (plain_loop (@cons bytes n (Getter n :: u)) (GoCamelCase (nth o oo []))) as (k2 & E2 & F3 & G3). cbv zeta in *.
      rewrite E2. cbv beta iota zeta. set (g := GoCamelCase (nth o oo []) ++ repeat x5f k2) in *.
      destruct (IH (@cons bytes g (@cons bytes n (Getter n :: u))) (o :: seen) oo) as (r & -> & R). eexists. split; [reflexivity|].
      apply rs_first; auto.
      * intro H. apply existsb_nat in H. congruence.
      * exists k2. reflexivity.
      * intro A. destruct k2 as [|k2]; [unfold g; cbn; apply app_nil_r|].
        specialize (G3 0 ltac:(lia)). cbn in G3. rewrite app_nil_r in G3. contradiction.
  - destruct (IH (@cons bytes n (Getter n :: u)) seen oo) as (r & -> & R). eexists. split; [reflexivity|].
    apply rs_plain; auto. intros o' H. congruence.
Qed.

Lemma resolved_nodup : forall u seen oo l r, resolved u seen oo l r ->
  NoDup (all_names r) /\ (forall n, In n (all_names r) -> ~ In n u).
Proof.
  intros u seen oo l r H. induction H as [|u seen oo f l n r Hu N1 N2 Hm Ho R [IH1 IH2]|u seen oo f l n o g r Hu N1 N2 Hm Ho Hs Hg N3 Hm2 R [IH1 IH2]].
  - split; [constructor|intros n []].
  - cbn [all_names]. unfold names_of. cbn [rf_go rf_oneof app]. split.
    + constructor; [|constructor; [|exact IH1]].
      * intros [H|H]; [exact (Getter_ne n H)|]. apply (IH2 n H). left. reflexivity.
      * intro H. apply (IH2 _ H). right. left. reflexivity.
    + intros m [<-|[<-|H]]; [exact N1|exact N2|]. intro Hc. apply (IH2 m H). right. right. exact Hc.
  - cbn [all_names]. unfold names_of. cbn [rf_go rf_oneof app]. split.
    + constructor; [|constructor; [|constructor; [|exact IH1]]].
      * intros [H|[H|H]]; [exact (Getter_ne n H)| |].
        -- apply N3. left. symmetry. exact H.
        -- apply (IH2 n H). right. left. reflexivity.
      * intros [H|H]; [apply N3; right; left; symmetry; exact H|]. apply (IH2 _ H). right. right. left. reflexivity.
      * intro H. apply (IH2 _ H). left. reflexivity.
    + intros m [<-|[<-|[<-|H]]]; [exact N1|exact N2| |].
      * intro Hc. apply N3. right. right. exact Hc.
      * intro Hc. apply (IH2 m H). right. right. right. exact Hc.
Qed.

Lemma all_names_in : forall r n, In n (all_names r) <->
  In n (map rf_go r) \/ In n (map Getter (map rf_go r)) \/ In n (oneof_go r).
Proof.
  induction r as [|[g o] r IH]; intro n; [cbn; tauto|].
  cbn [all_names map oneof_go names_of rf_go rf_oneof]. rewrite in_app_iff, IH. cbn [In].
  unfold names_of. destruct o as [[o g']|]; cbn [In rf_go rf_oneof]; tauto.
Qed.

Lemma NoDup_app_iff : forall A (a b : list A), NoDup (a ++ b) <-> NoDup a /\ NoDup b /\ (forall x, In x a -> ~ In x b).
Proof.
  intros A a b. induction a as [|x a IH]; cbn; split.
  - intro H. split; [constructor|]. split; [exact H|]. intros x [].
  - tauto.
  - intro H. inversion H as [|? ? Hx Ha]; subst. apply IH in Ha. destruct Ha as (A1 & A2 & A3).
    split; [constructor; [intro; apply Hx, in_or_app; auto|exact A1]|]. split; [exact A2|].
    intros y [<-|Hy]; [intro; apply Hx, in_or_app; auto|apply A3, Hy].
  - intros (H1 & H2 & H3). inversion H1 as [|? ? Hx Ha]; subst. constructor.
    + intro H. apply in_app_or in H. destruct H as [H|H]; [exact (Hx H)|]. apply (H3 x); auto.
    + apply IH. split; [exact Ha|]. split; [exact H2|]. intros y Hy. apply H3. right. exact Hy.
Qed.

Lemma split_nodup : forall r, NoDup (all_names r) ->
  NoDup (map rf_go r ++ map Getter (map rf_go r) ++ oneof_go r).
Proof.
  induction r as [|[n o] r IH]; intro H; [constructor|].
  cbn [all_names] in H. unfold names_of in H. cbn [rf_go rf_oneof] in H. cbn [map oneof_go rf_go rf_oneof].
  assert (Hr : NoDup (all_names r)) by (destruct o as [[? ?]|]; apply NoDup_app_iff in H; tauto).
  specialize (IH Hr). rewrite !NoDup_app_iff in IH. destruct IH as (I1 & (I2 & I3 & I4) & I5).
  assert (Hn : forall x, In x (all_names r) -> ~ In x (n :: Getter n :: match o with Some (_, g) => [g] | None => [] end)).
  { intros x Hx Hc. destruct o as [[? ?]|]; apply NoDup_app_iff in H; destruct H as (_ & _ & H); exact (H x Hc Hx). }
  assert (Hown : NoDup (n :: Getter n :: match o with Some (_, g) => [g] | None => [] end)).
  { destruct o as [[? ?]|]; apply NoDup_app_iff in H; tauto. }
  assert (K1 : forall x, In x (map rf_go r) -> x <> n /\ x <> Getter n /\ (forall o' g, o = Some (o', g) -> x <> g)).
  { intros x Hx. assert (Hy : In x (all_names r)) by (apply all_names_in; auto). specialize (Hn x Hy).
    repeat split; [intros ->; apply Hn; left; reflexivity|intros ->; apply Hn; right; left; reflexivity|].
    intros o' g -> ->. apply Hn. right. right. left. reflexivity. }
  assert (K2 : forall x, In x (map Getter (map rf_go r)) -> x <> n /\ x <> Getter n /\ (forall o' g, o = Some (o', g) -> x <> g)).
  { intros x Hx. assert (Hy : In x (all_names r)) by (apply all_names_in; auto). specialize (Hn x Hy).
    repeat split; [intros ->; apply Hn; left; reflexivity|intros ->; apply Hn; right; left; reflexivity|].
    intros o' g -> ->. apply Hn. right. right. left. reflexivity. }
  assert (K3 : forall x, In x (oneof_go r) -> x <> n /\ x <> Getter n /\ (forall o' g, o = Some (o', g) -> x <> g)).
  { intros x Hx. assert (Hy : In x (all_names r)) by (apply all_names_in; auto). specialize (Hn x Hy).
    repeat split; [intros ->; apply Hn; left; reflexivity|intros ->; apply Hn; right; left; reflexivity|].
    intros o' g -> ->. apply Hn. right. right. left. reflexivity. }
  inversion Hown as [|? ? O1 O2]; subst. inversion O2 as [|? ? O3 _]; subst.
  assert (Hog : forall x, In x (match o with Some (_, g) => g :: oneof_go r | None => oneof_go r end) <->
                 In x (oneof_go r) \/ exists o', o = Some (o', x)).
  { intro x. destruct o as [[o' g]|]; cbn [In]; split; intros Hx.
    - destruct Hx as [<-|Hx]; eauto.
    - destruct Hx as [Hx|(o'' & Hx)]; [auto|]. injection Hx. auto.
    - auto.
    - destruct Hx as [Hx|(o'' & Hx)]; [auto|discriminate]. }
  rewrite !NoDup_app_iff. split; [|split; [split; [|split]|]].
  - constructor; [|exact I1]. intro Hc. destruct (K1 n Hc). congruence.
  - constructor; [|exact I2]. intro Hc. destruct (K2 _ Hc) as (_ & ? & _). congruence.
  - destruct o as [[o' g]|]; [|exact I3]. constructor; [|exact I3]. intro Hc. destruct (K3 g Hc) as (_ & _ & Hx).
    apply (Hx o' g); reflexivity.
  - intros x [<-|Hx] Hc; apply Hog in Hc.
    + destruct Hc as [Hc|(o' & ->)]; [destruct (K3 _ Hc) as (_ & ? & _); congruence|]. apply O3. left. reflexivity.
    + destruct Hc as [Hc|(o' & ->)]; [exact (I4 x Hx Hc)|]. destruct (K2 x Hx) as (_ & _ & Hy). apply (Hy o' x); reflexivity.
  - intros x Hx Hc. apply in_app_or in Hc. destruct Hx as [<-|Hx].
    + destruct Hc as [[Hc|Hc]|Hc].
      * apply (Getter_ne n). exact Hc.
      * destruct (K2 n Hc). congruence.
      * apply Hog in Hc. destruct Hc as [Hc|(o' & ->)]; [destruct (K3 n Hc); congruence|]. apply O1. right. left. reflexivity.
    + destruct Hc as [[<-|Hc]|Hc].
      * destruct (K1 _ Hx) as (_ & ? & _). congruence.
      * apply (I5 x Hx). apply in_or_app. auto.
      * apply Hog in Hc. destruct Hc as [Hc|(o' & ->)]; [apply (I5 x Hx), in_or_app; auto|].
        destruct (K1 x Hx) as (_ & _ & Hy). apply (Hy o' x); reflexivity.
Qed.

Lemma resolved_names : forall u seen oo l r, resolved u seen oo l r ->
  Forall2 (fun f n => underscored (GoCamelCase (pf_name f)) (rf_go n)) l r.
Proof. induction 1; constructor; assumption. Qed.

(** The oneofs that get a name are those of the fields, once each. *)
Lemma resolved_oneofs : forall u seen oo l r, resolved u seen oo l r ->
  (forall f o, In f l -> pf_one f = Some o -> In o seen \/ exists g, In (mkRF (rf_go g) (Some (o, match rf_oneof g with Some (_, x) => x | None => [] end))) r) /\
  (forall n o g, In n r -> rf_oneof n = Some (o, g) -> underscored (GoCamelCase (nth o oo [])) g).
Proof.
  intros u seen oo l r H. induction H as [|u seen oo f l n r Hu N1 N2 Hm Ho R [IH1 IH2]|u seen oo f l n o g r Hu N1 N2 Hm Ho Hs Hg N3 Hm2 R [IH1 IH2]].
  - split; [intros f o []|intros n o g []].
  - split.
    + intros f' o [<-|Hin] E; [left; apply Ho, E|]. destruct (IH1 f' o Hin E) as [H|(g & H)]; [auto|].
      right. exists g. right. exact H.
    + intros n' o g [<-|Hin] E; [discriminate|]. eapply IH2; eassumption.
  - split.
    + intros f' o' [<-|Hin] E.
      * right. rewrite Ho in E. injection E as <-. exists (mkRF n (Some (o, g))). left. reflexivity.
      * destruct (IH1 f' o' Hin E) as [[<-|H]|(g' & H)]; [|auto|].
        -- right. exists (mkRF n (Some (o, g))). left. reflexivity.
        -- right. exists g'. right. exact H.
    + intros n' o' g' [<-|Hin] E; [injection E as <- <-; exact Hg|]. eapply IH2; eassumption.
Qed.

(** If the names are distinct to begin with, they stay as they are. *)
Lemma resolved_stable : forall u seen oo l r, resolved u seen oo l r ->
  let fs := map (fun f => GoCamelCase (pf_name f)) l in
  let os := map (fun o => GoCamelCase (nth o oo [])) (first_oneofs seen l) in
  NoDup (fs ++ map Getter fs ++ os) -> (forall n, In n (fs ++ map Getter fs ++ os) -> ~ In n u) ->
  map rf_go r = fs /\ oneof_go r = os.
Proof.
  intros u seen oo l r H. induction H as [|u seen oo f l n r Hu N1 N2 Hm Ho R IH|u seen oo f l n o g r Hu N1 N2 Hm Ho Hs Hg N3 Hm2 R IH]; cbv zeta.
  - auto.
  - set (c := GoCamelCase (pf_name f)) in *.
    assert (Hf : first_oneofs seen (f :: l) = first_oneofs seen l).
    { cbn [first_oneofs]. destruct (pf_one f) as [o|]; [|reflexivity].
      specialize (Ho o eq_refl). apply existsb_nat in Ho. rewrite Ho. reflexivity. }
    rewrite Hf. cbn [map]. fold c.
    set (fs := map (fun f => GoCamelCase (pf_name f)) l) in *.
    set (os := map (fun o => GoCamelCase (nth o oo [])) (first_oneofs seen l)) in *.
    intros ND Dis.
    assert (En : n = c).
    { apply Hm; apply Dis.
      - left. reflexivity.
      - right. apply in_or_app. right. left. reflexivity. }
    subst n. cbn [app] in ND. inversion ND as [|? ? Hc ND1]; subst.
    assert (ND2 : NoDup (fs ++ map Getter fs ++ os) /\ ~ In (Getter c) (fs ++ map Getter fs ++ os)).
    { apply NoDup_remove in ND1. exact ND1. }
    destruct ND2 as [ND2 Hg].
    destruct IH as [IH1 IH2]; [exact ND2| |].
    + intros x Hx [<-|[<-|Hc']].
      * apply Hc. apply in_app_or in Hx. apply in_or_app. destruct Hx as [Hx|Hx]; [auto|]. right. right. exact Hx.
      * exact (Hg Hx).
      * apply (Dis x); [|exact Hc']. apply in_app_or in Hx. cbn [app]. right. apply in_or_app.
        destruct Hx as [Hx|Hx]; [auto|]. right. right. exact Hx.
    + cbn [rf_go oneof_go rf_oneof]. rewrite IH1, IH2. auto.
  - set (c := GoCamelCase (pf_name f)) in *.
    assert (Hf : first_oneofs seen (f :: l) = o :: first_oneofs (o :: seen) l).
    { cbn [first_oneofs]. rewrite Ho. destruct (existsb (Nat.eqb o) seen) eqn:E; [|reflexivity].
      apply existsb_nat in E. contradiction. }
    rewrite Hf. cbn [map]. fold c.
    set (fs := map (fun f => GoCamelCase (pf_name f)) l) in *.
    set (os := map (fun o => GoCamelCase (nth o oo [])) (first_oneofs (o :: seen) l)) in *.
    set (d := GoCamelCase (nth o oo [])) in *.
    intros ND Dis.
    assert (En : n = c).
    { apply Hm; apply Dis.
      - left. reflexivity.
      - right. apply in_or_app. right. left. reflexivity. }
    subst n. cbn [app] in ND. inversion ND as [|? ? Hc ND1]; subst.
    assert (ND2 : NoDup (fs ++ map Getter fs ++ d :: os) /\ ~ In (Getter c) (fs ++ map Getter fs ++ d :: os)).
    { apply NoDup_remove in ND1. exact ND1. }
    destruct ND2 as [ND2 Hg'].
    assert (ND3 : NoDup (fs ++ map Getter fs ++ os) /\ ~ In d (fs ++ map Getter fs ++ os)).
    { rewrite app_assoc in ND2. apply NoDup_remove in ND2. rewrite <- app_assoc in ND2. exact ND2. }
    destruct ND3 as [ND3 Hd].
    assert (Eg : g = d).
    { apply Hm2. intros [E|[E|E]].
      - apply Hc. rewrite E. apply in_or_app. right. right. apply in_or_app. right. left. reflexivity.
      - apply Hg'. rewrite E. apply in_or_app. right. apply in_or_app. right. left. reflexivity.
      - apply (Dis d); [|exact E]. right. apply in_or_app. right. right. apply in_or_app. right. left. reflexivity. }
    subst g.
    destruct IH as [IH1 IH2]; [exact ND3| |].
    + assert (Hin : forall x, In x (fs ++ map Getter fs ++ os) -> In x (fs ++ map Getter fs ++ d :: os)).
      { intros x Hx. rewrite !in_app_iff in *. cbn [In]. tauto. }
      intros x Hx [<-|[<-|[<-|Hc']]].
      * exact (Hd Hx).
      * apply Hc. apply Hin in Hx. clear -Hx. rewrite ?in_app_iff in *. cbn [In] in *. rewrite ?in_app_iff in *. cbn [In] in *. tauto.
      * exact (Hg' (Hin _ Hx)).
      * apply (Dis x); [|exact Hc']. apply Hin in Hx. clear -Hx. rewrite ?in_app_iff in *. cbn [In] in *. rewrite ?in_app_iff in *. cbn [In] in *. tauto.
    + cbn [rf_go oneof_go rf_oneof]. rewrite IH1, IH2. auto.
Qed.

(** ** Oneof wrappers *)
Lemma wrapper_name_spec : forall nested msg field, exists k,
  wrapper_name nested msg field = Some (msg ++ bs "_" ++ field ++ repeat x5f k) /\
  ~ In (msg ++ bs "_" ++ field ++ repeat x5f k) nested /\
  (~ In (msg ++ bs "_" ++ field) nested -> k = 0).
Proof.
  intros. unfold wrapper_name, OneofStructName. destruct (plain_loop nested (msg ++ bs "_" ++ field ++ [])) as (k & E & F & G).
  cbv zeta in *. rewrite app_nil_r in *.
  assert (Q : (msg ++ bs "_" ++ field) ++ repeat x5f k = msg ++ bs "_" ++ field ++ repeat x5f k).
  { rewrite <- !app_assoc. reflexivity. }
  rewrite Q in E, F. exists k. split; [exact E|]. split; [exact F|].
  intro H. destruct k; [reflexivity|]. destruct H. specialize (G 0 ltac:(lia)). cbn in G. rewrite app_nil_r in G. exact G.
Qed.

Lemma underscore_split : forall a b j k, a ++ repeat x5f j = b ++ repeat x5f k ->
  (exists i, a = b ++ repeat x5f i) \/ (exists i, b = a ++ repeat x5f i).
Proof.
  induction a as [|x a IH]; intros b j k H.
  - right. cbn in H. clear -H. exists (length b).
    assert (Hb : forall c, In c b -> c = x5f).
    { intros c Hc. apply (repeat_spec j). rewrite H. apply in_or_app. auto. }
    clear H. induction b as [|c b IH]; [reflexivity|]. cbn. rewrite (Hb c) by (left; reflexivity). f_equal.
    apply IH. intros d Hd. apply Hb. right. exact Hd.
  - destruct b as [|y b].
    + left. cbn in H. exists (length (x :: a)).
      assert (Hb : forall c, In c (x :: a) -> c = x5f).
      { intros c Hc. apply (repeat_spec k). rewrite <- H. change (x :: a ++ repeat x5f j) with ((x :: a) ++ repeat x5f j).
        apply in_or_app. auto. }
      clear H IH. cbn [app]. induction (x :: a) as [|c l IHl]; [reflexivity|]. cbn. rewrite (Hb c) by (left; reflexivity). f_equal.
      apply IHl. intros d Hd. apply Hb. right. exact Hd.
    + cbn in H. injection H as -> H. destruct (IH b j k H) as [(i & ->)|(i & ->)]; [left|right]; exists i; reflexivity.
Qed.

Lemma wrapper_names_spec : forall nested msg l names, length l = length names ->
  exists ws, wrapper_names nested msg l names = Some ws /\
    (forall w, In w ws -> ~ In w nested) /\
    (forall w, In w ws -> exists f n k, In (f, n) (combine l names) /\ pf_one f <> None /\ w = msg ++ bs "_" ++ rf_go n ++ repeat x5f k /\
       (~ In (msg ++ bs "_" ++ rf_go n) nested -> k = 0)).
Proof.
  intros nested msg. induction l as [|f l IH]; intros [|n ns] Hl; try discriminate.
  - exists []. split; [reflexivity|]. split; intros w [].
  - cbn in Hl. injection Hl as Hl. destruct (IH ns Hl) as (ws & E & F & G). cbn [wrapper_names].
    destruct (pf_one f) as [o|] eqn:Eo.
    + destruct (wrapper_name_spec nested msg (rf_go n)) as (k & -> & Hk & Hk'). rewrite E.
      eexists. split; [reflexivity|]. split.
      * intros w [<-|Hw]; [exact Hk|apply F, Hw].
      * intros w [<-|Hw].
        -- exists f, n, k. split; [left; reflexivity|]. rewrite Eo. split; [discriminate|]. auto.
        -- destruct (G w Hw) as (f' & n' & k' & Hin & A). exists f', n', k'. split; [right; exact Hin|exact A].
    + exists ws. split; [exact E|]. split; [exact F|]. intros w Hw.
      destruct (G w Hw) as (f' & n' & k' & Hin & A). exists f', n', k'. split; [right; exact Hin|exact A].
Qed.

Lemma wrapper_names_nodup : forall nested msg l names ws, wrapper_names nested msg l names = Some ws ->
  NoDup (map rf_go names) ->
  (forall n n' i, In n names -> In n' names -> n <> n' -> rf_go n' <> rf_go n ++ repeat x5f i) -> NoDup ws.
Proof.
  intros nested msg. induction l as [|f l IH]; intros [|n ns] ws H ND Hd; cbn [wrapper_names] in H; try (injection H as <-; constructor).
  cbn [map] in ND. inversion ND as [|? ? Hn ND']; subst.
  assert (Hd' : forall n n' i, In n ns -> In n' ns -> n <> n' -> rf_go n' <> rf_go n ++ repeat x5f i) by (intros; apply Hd; [right|right|]; assumption).
  destruct (pf_one f) as [o|] eqn:Eo; [|eauto].
  destruct (wrapper_name_spec nested msg (rf_go n)) as (k & E & Hk & _). rewrite E in H.
  destruct (wrapper_names nested msg l ns) as [ws'|] eqn:E'; [|discriminate]. injection H as <-.
  constructor; [|eauto].
  intro Hin.
  assert (Hw : exists n' k', In n' ns /\ msg ++ bs "_" ++ rf_go n ++ repeat x5f k = msg ++ bs "_" ++ rf_go n' ++ repeat x5f k').
  { clear -Hin E'. revert ns ws' E' Hin. induction l as [|f l IH]; intros [|n' ns] ws' E' Hin; cbn [wrapper_names] in E'; try (injection E' as <-; destruct Hin).
    destruct (pf_one f).
    - destruct (wrapper_name_spec nested msg (rf_go n')) as (k' & E2 & _). rewrite E2 in E'.
      destruct (wrapper_names nested msg l ns) as [ws|] eqn:E3; [|discriminate]. injection E' as <-.
      destruct Hin as [Hin|Hin].
      + exists n', k'. split; [left; reflexivity|]. symmetry. exact Hin.
      + destruct (IH ns ws E3 Hin) as (m & k2 & A & B). exists m, k2. split; [right; exact A|exact B].
    - destruct (IH ns ws' E' Hin) as (m & k2 & A & B). exists m, k2. split; [right; exact A|exact B]. }
  destruct Hw as (n' & k' & Hin' & Eq).
  apply app_inv_head in Eq. apply app_inv_head in Eq.
  assert (Hne : n <> n') by (intros ->; apply Hn; apply in_map; exact Hin').
  destruct (underscore_split _ _ _ _ Eq) as [(i & A)|(i & A)].
  - apply (Hd n' n i); [right; exact Hin'|left; reflexivity|congruence|exact A].
  - apply (Hd n n' i); [left; reflexivity|right; exact Hin'|exact Hne|exact A].
Qed.

(** ** Fields and methods of the struct *)
Lemma NoDup_cons_app : forall A (a : A) l, NoDup (a :: l) -> ~ In a l /\ NoDup l.
Proof. intros A a l H. inversion H; auto. Qed.

Lemma struct_incl : forall l names n, In n (struct_names l names) -> In n (map rf_go names) \/ In n (oneof_go names).
Proof.
  induction l as [|f l IH]; intros [|[g o] names] n H; try (destruct H; fail).
  cbn [struct_names rf_go rf_oneof] in H. cbn [map oneof_go rf_go rf_oneof].
  destruct (pf_one f) as [o'|].
  - destruct o as [[o'' g']|].
    + destruct H as [<-|H]; [right; left; reflexivity|]. destruct (IH names n H); [left; right|right; right]; assumption.
    + destruct (IH names n H); [left; right|right]; assumption.
  - destruct H as [<-|H]; [left; left; reflexivity|]. destruct (IH names n H); [left; right; assumption|].
    right. destruct o as [[? ?]|]; [right|]; assumption.
Qed.
Lemma struct_nodup : forall l names, NoDup (all_names names) -> NoDup (struct_names l names).
Proof.
  induction l as [|f l IH]; intros [|[g o] names] H; try constructor.
  cbn [all_names] in H. unfold names_of in H. cbn [rf_go rf_oneof] in H.
  assert (H' := H). apply NoDup_app_iff in H'. destruct H' as (_ & Hr & Hd).
  cbn [struct_names rf_go rf_oneof].
  assert (K : forall x, In x (struct_names l names) -> In x (all_names names)).
  { intros x Hx. apply all_names_in. destruct (struct_incl _ _ _ Hx); auto. }
  destruct (pf_one f) as [o'|].
  - destruct o as [[o'' g']|]; [|apply IH, Hr]. constructor; [|apply IH, Hr].
    intro Hx. apply (Hd g'); [right; right; left; reflexivity|apply K, Hx].
  - constructor; [|apply IH, Hr]. intro Hx. apply (Hd g); [left; reflexivity|apply K, Hx].
Qed.

Fixpoint gsrc (l : list rfield) : list bytes :=
  match l with
  | [] => []
  | n :: r => match rf_oneof n with Some (_, g) => [g] | None => [] end ++ rf_go n :: gsrc r
  end.
Lemma getters_gsrc : forall l, getter_names l = map Getter (gsrc l).
Proof. induction l as [|[g [[o x]|]] l IH]; cbn [getter_names gsrc rf_go rf_oneof app map]; [reflexivity| |]; rewrite IH; reflexivity. Qed.
Lemma gsrc_in : forall l n, In n (gsrc l) <-> In n (map rf_go l) \/ In n (oneof_go l).
Proof.
  induction l as [|[g o] l IH]; intro n; [cbn; tauto|]. cbn [gsrc map oneof_go rf_go rf_oneof].
  rewrite in_app_iff. cbn [In]. rewrite IH. destruct o as [[o x]|]; cbn [In]; tauto.
Qed.
Lemma gsrc_nodup : forall l, NoDup (all_names l) -> NoDup (gsrc l).
Proof.
  induction l as [|[g o] l IH]; intro H; [constructor|].
  cbn [all_names] in H. unfold names_of in H. cbn [rf_go rf_oneof] in H.
  assert (H' := H). apply NoDup_app_iff in H'. destruct H' as (Ho & Hr & Hd). specialize (IH Hr).
  assert (K : forall x, In x (gsrc l) -> In x (all_names l)).
  { intros x Hx. apply all_names_in. apply gsrc_in in Hx. tauto. }
  cbn [gsrc rf_go rf_oneof].
  assert (Hg : NoDup (g :: gsrc l)).
  { constructor; [|exact IH]. intro Hx. apply (Hd g); [left; reflexivity|apply K, Hx]. }
  destruct o as [[o x]|]; [|exact Hg]. cbn [app]. constructor; [|exact Hg].
  intros [Hx|Hx].
  - inversion Ho as [|? ? Hn _]; subst. apply Hn. right. left. reflexivity.
  - apply (Hd x); [right; right; left; reflexivity|apply K, Hx].
Qed.

Lemma map_inj_nodup : forall A B (f : A -> B) l, (forall a b, f a = f b -> a = b) -> NoDup l -> NoDup (map f l).
Proof.
  intros A B f l Hf H. induction H as [|a l Ha H IH]; [constructor|]. cbn. constructor; [|exact IH].
  intro Hc. apply in_map_iff in Hc. destruct Hc as (b & Hb & Hin). apply Hf in Hb. subst. contradiction.
Qed.

Definition starts_get (n : bytes) : Prop := exists t, n = bs "Get" ++ t.
Lemma underscored_get : forall n m, underscored n m -> starts_get m -> starts_get n.
Proof.
  intros n m (k & ->) (t & E).
  assert (R : forall k c r, repeat x5f k = c :: r -> c = x5f).
  { intros k0 c r Q. destruct k0; [discriminate|]. cbn in Q. congruence. }
  destruct n as [|a [|b [|c n]]]; cbn [app] in E; change (bs "Get" ++ t) with (x47 :: x65 :: x74 :: t) in E.
  - apply R in E. discriminate.
  - injection E as _ E. apply R in E. discriminate.
  - injection E as _ _ E. apply R in E. discriminate.
  - injection E as -> -> -> E. exists n. reflexivity.
Qed.
Lemma underscored_eq : forall n m, underscored n m -> (forall p, m <> p ++ [x5f]) -> n = m.
Proof.
  intros n m (k & ->) H. destruct k; [cbn; rewrite app_nil_r; reflexivity|].
  exfalso. apply (H (n ++ repeat x5f k)). rewrite <- app_assoc. f_equal.
  change [x5f] with (repeat x5f 1). rewrite <- repeat_app. f_equal. lia.
Qed.
Lemma last_neq : forall (a : bytes) (c : byte) (p : bytes) (d : byte), c <> d -> a ++ [c] <> p ++ [d].
Proof. intros a c p d H E. apply app_inj_tail in E. tauto. Qed.

Lemma selectors_nodup : forall g c m names,
  resolveFieldConflicts m = Some names ->
  (forall f, In f (pm_fields m) -> full_name (pf_name f)) ->
  (forall f o, In f (pm_fields m) -> pf_one f = Some o -> full_name (nth o (pm_oneofs m) [])) ->
  let src := map pf_name (pm_fields m) ++ map (fun o => nth o (pm_oneofs m) []) (first_oneofs [] (pm_fields m)) in
  (pm_oneofs m <> [] -> forall s, In s src -> GoCamelCase s <> bs "XXX_OneofWrappers") ->
  (g_getter g = true -> forall s, In s src -> ~ starts_get (GoCamelCase s)) ->
  NoDup (selectors g c m names).
Proof.
  intros g c m names HR Hn Ho src HX HG.
  unfold resolveFieldConflicts in HR.
  destruct (resolve_fields_spec (pm_fields m) reserved_names [] (pm_oneofs m)) as (r & E & R).
  rewrite E in HR. injection HR as ->.
  destruct (resolved_nodup _ _ _ _ _ R) as [ND Dis].
  assert (Src : forall x, In x (map rf_go names) \/ In x (oneof_go names) ->
                exists s, In s src /\ underscored (GoCamelCase s) x /\ full_name s).
  { assert (G : forall u seen oo l r, resolved u seen oo l r ->
                forall x, In x (map rf_go r) \/ In x (oneof_go r) ->
                exists s, In s (map pf_name l ++ map (fun o => nth o oo []) (first_oneofs seen l)) /\ underscored (GoCamelCase s) x /\
                  ((exists f, In f l /\ s = pf_name f) \/ exists f o, In f l /\ pf_one f = Some o /\ s = nth o oo [])).
    { clear. intros u seen oo l r H. induction H as [|u seen oo f l n r Hu N1 N2 Hm Ho R IH|u seen oo f l n o g r Hu N1 N2 Hm Ho Hs Hg N3 Hm2 R IH]; intros x Hx.
      - destruct Hx as [[]|[]].
      - assert (Hf : first_oneofs seen (f :: l) = first_oneofs seen l).
        { cbn [first_oneofs]. destruct (pf_one f) as [o|]; [|reflexivity].
          specialize (Ho o eq_refl). apply existsb_nat in Ho. rewrite Ho. reflexivity. }
        rewrite Hf. cbn [map rf_go oneof_go rf_oneof] in *.
        assert (Hx' : n = x \/ (In x (map rf_go r) \/ In x (oneof_go r))) by (cbn [In] in Hx; tauto).
        destruct Hx' as [<-|Hx'].
        + exists (pf_name f). split; [left; reflexivity|]. split; [exact Hu|]. left. exists f. split; [left; reflexivity|reflexivity].
        + destruct (IH x Hx') as (s & A & B & C). exists s. split; [right; exact A|]. split; [exact B|].
          destruct C as [(f' & C1 & C2)|(f' & o & C1 & C2)]; [left; exists f'|right; exists f', o]; (split; [right; exact C1|exact C2]).
      - assert (Hf : first_oneofs seen (f :: l) = o :: first_oneofs (o :: seen) l).
        { cbn [first_oneofs]. rewrite Ho. destruct (existsb (Nat.eqb o) seen) eqn:E; [|reflexivity].
          apply existsb_nat in E. contradiction. }
        rewrite Hf. cbn [map rf_go oneof_go rf_oneof] in *.
        assert (Hx' : n = x \/ g = x \/ (In x (map rf_go r) \/ In x (oneof_go r))) by (cbn [In] in Hx; tauto).
        destruct Hx' as [<-|[<-|Hx']].
        + exists (pf_name f). split; [left; reflexivity|]. split; [exact Hu|]. left. exists f. split; [left; reflexivity|reflexivity].
        + exists (nth o oo []). split; [right; apply in_or_app; right; left; reflexivity|]. split; [exact Hg|].
          right. exists f, o. split; [left; reflexivity|auto].
        + destruct (IH x Hx') as (s & A & B & C). exists s.
          split; [right; apply in_app_or in A; apply in_or_app; destruct A as [A|A]; [left|right; right]; exact A|]. split; [exact B|].
          destruct C as [(f' & C1 & C2)|(f' & o' & C1 & C2)]; [left; exists f'|right; exists f', o']; (split; [right; exact C1|exact C2]). }
    intros x Hx. destruct (G _ _ _ _ _ R x Hx) as (s & A & B & C). exists s. split; [exact A|]. split; [exact B|].
    destruct C as [(f & Hf & ->)|(f & o & Hf & Ef & ->)]; [apply Hn, Hf|apply (Ho f o Hf Ef)]. }
  assert (Upper : forall x, In x (map rf_go names) \/ In x (oneof_go names) -> exists h t, x = h :: t /\ is_upper h = true).
  { intros x Hx. destruct (Src x Hx) as (s & _ & (k & ->) & F). destruct (camel_exported s F) as (h & t & -> & U & _).
    exists h, (t ++ repeat x5f k). split; [reflexivity|exact U]. }
  assert (Disj : forall x, In x (map rf_go names) \/ In x (oneof_go names) -> ~ In x reserved_names).
  { intros x Hx. apply Dis. apply all_names_in. tauto. }
  assert (GetR : forall x, starts_get x -> ~ In x reserved_names /\ x <> bs "XXX_OneofWrappers" /\ x <> bs "unknownFields").
  { intros x (t & ->). split; [|split].
    - intro Q. cbn in Q. intuition discriminate.
    - discriminate.
    - discriminate. }
  assert (SG : g_getter g = true -> forall x y, In x (map rf_go names) \/ In x (oneof_go names) -> In y (getter_names names) -> x <> y).
  { intros Hg x y Hx Hy ->. rewrite getters_gsrc in Hy. apply in_map_iff in Hy. destruct Hy as (z & <- & Hz).
    destruct (Src _ Hx) as (s & A & B & _). apply (HG Hg s A). apply (underscored_get _ _ B). exists z. reflexivity. }
  assert (Mid : forall x, In x (map rf_go names) \/ In x (oneof_go names) -> x <> bs "unknownFields" /\ x <> bs "Reset" /\ x <> bs "Marshal" /\ x <> bs "Unmarshal").
  { intros x Hx. specialize (Disj x Hx). destruct (Upper x Hx) as (h & t & -> & U).
    split; [intro Q; injection Q as -> _; vm_compute in U; discriminate|].
    split; [|split]; intro Q; apply Disj; rewrite Q; cbn; tauto. }
  assert (XX : pm_oneofs m <> [] -> forall x, In x (map rf_go names) \/ In x (oneof_go names) -> x <> bs "XXX_OneofWrappers").
  { intros Hm x Hx ->. destruct (Src _ Hx) as (s & A & B & _). apply (HX Hm s A). apply (underscored_eq _ _ B).
    intro p. apply (last_neq (bs "XXX_OneofWrapper")). discriminate. }
  unfold selectors.
  set (S1 := struct_names (pm_fields m) names).
  set (S2 := if genUnknownFields c then [bs "unknownFields"] else []).
  set (S3 := [bs "Reset"]).
  set (S4 := if g_kitex g then [bs "Marshal"; bs "Unmarshal"] else []).
  set (S5 := if g_getter g then getter_names names else []).
  set (S6 := match pm_oneofs m with [] => [] | _ => [bs "XXX_OneofWrappers"] end).
  assert (I1 : forall x, In x S1 -> In x (map rf_go names) \/ In x (oneof_go names)) by (intros x; apply struct_incl).
  assert (I2 : forall x, In x S2 -> x = bs "unknownFields").
  { unfold S2. destruct (genUnknownFields c); intros x Q; [destruct Q as [<-|[]]; reflexivity|destruct Q]. }
  assert (I3 : forall x, In x S3 -> x = bs "Reset") by (intros x [<-|[]]; reflexivity).
  assert (I4 : forall x, In x S4 -> x = bs "Marshal" \/ x = bs "Unmarshal").
  { unfold S4. destruct (g_kitex g); intros x Q; [destruct Q as [<-|[<-|[]]]; auto|destruct Q]. }
  assert (I5 : forall x, In x S5 -> g_getter g = true /\ In x (getter_names names) /\ starts_get x).
  { unfold S5. destruct (g_getter g); intros x Q; [|destruct Q]. split; [reflexivity|]. split; [exact Q|].
    rewrite getters_gsrc in Q. apply in_map_iff in Q. destruct Q as (z & <- & _). exists z. reflexivity. }
  assert (I6 : forall x, In x S6 -> x = bs "XXX_OneofWrappers" /\ pm_oneofs m <> []).
  { unfold S6. destruct (pm_oneofs m); intros x Q; [destruct Q|]. destruct Q as [<-|[]]. split; [reflexivity|discriminate]. }
  rewrite !NoDup_app_iff.
  split; [apply struct_nodup, ND|]. split.
  2:{ intros x A. apply I1 in A. rewrite !in_app_iff. destruct (Mid x A) as (M1 & M2 & M3 & M4).
      intros [Q|[Q|[Q|[Q|Q]]]].
      - apply I2 in Q. contradiction.
      - apply I3 in Q. contradiction.
      - apply I4 in Q. tauto.
      - apply I5 in Q. destruct Q as (Hg & Q & _). exact (SG Hg x x A Q eq_refl).
      - apply I6 in Q. destruct Q as [Q Hm]. exact (XX Hm x A Q). }
  split; [unfold S2; destruct (genUnknownFields c); repeat constructor; intros []|]. split.
  2:{ intros x A. apply I2 in A. subst x. rewrite !in_app_iff.
      intros [Q|[Q|[Q|Q]]]; [apply I3 in Q; discriminate|apply I4 in Q; destruct Q; discriminate| |].
      - apply I5 in Q. destruct Q as (_ & _ & Q). apply GetR in Q. tauto.
      - apply I6 in Q. destruct Q; discriminate. }
  split; [repeat constructor; intros []|]. split.
  2:{ intros x A. apply I3 in A. subst x. rewrite !in_app_iff.
      intros [Q|[Q|Q]]; [apply I4 in Q; destruct Q; discriminate| |].
      - apply I5 in Q. destruct Q as (_ & _ & Q). apply GetR in Q. destruct Q as [Q _]. apply Q. cbn. tauto.
      - apply I6 in Q. destruct Q; discriminate. }
  split; [unfold S4; destruct (g_kitex g); repeat constructor; cbn; intuition discriminate|]. split.
  2:{ intros x A. apply I4 in A. rewrite !in_app_iff. intros [Q|Q].
      - apply I5 in Q. destruct Q as (_ & _ & Q). apply GetR in Q. destruct Q as [Q _]. apply Q. destruct A as [->| ->]; cbn; tauto.
      - apply I6 in Q. destruct Q as [-> _]. destruct A; discriminate. }
  split; [|split].
  - unfold S5. destruct (g_getter g); [|constructor]. rewrite getters_gsrc. apply map_inj_nodup; [exact Getter_inj|apply gsrc_nodup, ND].
  - unfold S6. destruct (pm_oneofs m); repeat constructor. intros [].
  - intros x A Q. apply I5 in A. apply I6 in Q. destruct A as (_ & _ & A). apply GetR in A. tauto.
Qed.

(** ** Declarations *)
Section MTree.
Variable P : mtree -> Prop.
Hypothesis HMT : forall n es ms, Forall P ms -> P (MT n es ms).
Fixpoint mtree_ind' (m : mtree) : P m :=
  match m with
  | MT n es ms => HMT n es ms ((fix go l : Forall P l := match l with [] => Forall_nil _ | x :: r => Forall_cons _ (mtree_ind' x) (go r) end) ms)
  end.
End MTree.

Lemma in_msgs : forall path ms d, In d (concat (map (msg_gen path) ms)) <-> exists m, In m ms /\ In d (msg_gen path m).
Proof.
  intros. rewrite in_concat. split.
  - intros (l & Hl & Hd). apply in_map_iff in Hl. destruct Hl as (m & <- & Hm). eauto.
  - intros (m & Hm & Hd). exists (msg_gen path m). split; [apply in_map, Hm|exact Hd].
Qed.

Lemma msg_gen_in : forall m path d, In d (msg_gen path m) <->
  exists q, d = GMsg (path ++ q) /\ declares_msg [m] q.
Proof.
  induction m as [n es ms IH] using mtree_ind'. intros path d. cbn [msg_gen In]. rewrite in_msgs. split.
  - intros [<-|(m & Hm & Hd)].
    + exists [n]. split; [reflexivity|]. eapply dm_here. left. reflexivity.
    + rewrite Forall_forall in IH. apply (IH m Hm) in Hd. destruct Hd as (q & -> & Hq).
      exists (n :: q). split; [rewrite <- app_assoc; reflexivity|]. eapply dm_in; [left; reflexivity|].
      inversion Hq as [ms' n' es' sub Hin|ms' n' es' sub p Hin Hp]; subst; destruct Hin as [->|[]].
      * eapply dm_here, Hm.
      * eapply dm_in; [exact Hm|exact Hp].
  - intros (q & -> & Hq). inversion Hq as [ms' n' es' sub Hin|ms' n' es' sub p Hin Hp]; subst; (destruct Hin as [E|[]]; injection E as -> -> ->).
    + left. reflexivity.
    + right. rewrite Forall_forall in IH.
      assert (Hm : exists m, In m sub /\ declares_msg [m] p).
      { inversion Hp as [ms' n2 es2 sub2 Hin|ms' n2 es2 sub2 p2 Hin Hp2]; subst.
        - eexists. split; [exact Hin|]. eapply dm_here. left. reflexivity.
        - eexists. split; [exact Hin|]. eapply dm_in; [left; reflexivity|exact Hp2]. }
      destruct Hm as (m & Hm & Hp'). exists m. split; [exact Hm|]. apply (IH m Hm). exists p.
      split; [rewrite <- app_assoc; reflexivity|exact Hp'].
Qed.

Lemma declares_split : forall ms p, declares_msg ms p <-> exists m, In m ms /\ declares_msg [m] p.
Proof.
  intros. split.
  - intro Hp. inversion Hp as [ms' n2 es2 sub2 Hin|ms' n2 es2 sub2 p2 Hin Hp2]; subst.
    + eexists. split; [exact Hin|]. eapply dm_here. left. reflexivity.
    + eexists. split; [exact Hin|]. eapply dm_in; [left; reflexivity|exact Hp2].
  - intros (m & Hm & Hp). inversion Hp as [ms' n2 es2 sub2 Hin|ms' n2 es2 sub2 p2 Hin Hp2]; subst; destruct Hin as [->|[]].
    + eapply dm_here, Hm.
    + eapply dm_in; [exact Hm|exact Hp2].
Qed.

Lemma ProtoGen_msg : forall es ms p, In (GMsg p) (ProtoGen es ms) <-> declares_msg ms p.
Proof.
  intros es ms p. unfold ProtoGen. rewrite !in_app_iff, in_msgs, declares_split. split.
  - intros [H|[H|(m & Hm & H)]].
    + apply in_map_iff in H. destruct H as (x & H & _). discriminate.
    + apply in_concat in H. destruct H as (l & Hl & H). apply in_map_iff in Hl. destruct Hl as ([n e s] & <- & _).
      apply in_map_iff in H. destruct H as (x & H & _). discriminate.
    + exists m. split; [exact Hm|]. apply msg_gen_in in H. destruct H as (q & E & H). cbn in E. injection E as ->. exact H.
  - intros (m & Hm & H). right. right. exists m. split; [exact Hm|]. apply msg_gen_in. exists p. auto.
Qed.
Lemma ProtoGen_enum : forall es ms p, In (GEnum p) (ProtoGen es ms) <-> declares_enum es ms p /\ length p <= 2.
Proof.
  intros es ms p. unfold ProtoGen. rewrite !in_app_iff, in_msgs. split.
  - intros [H|[H|(m & Hm & H)]].
    + apply in_map_iff in H. destruct H as (x & E & Hx). injection E as <-. split; [constructor; exact Hx|cbn; lia].
    + apply in_concat in H. destruct H as (l & Hl & H). apply in_map_iff in Hl. destruct Hl as ([n e s] & <- & Hin).
      apply in_map_iff in H. destruct H as (x & E & Hx). injection E as <-.
      split; [eapply de_in; [exact Hin|constructor; exact Hx]|cbn; lia].
    + apply msg_gen_in in H. destruct H as (q & E & _). discriminate.
  - intros (H & L). inversion H as [es' ms' e He|es' ms' n es2 sub q Hin Hq]; subst.
    + left. apply in_map_iff. eauto.
    + right. left. inversion Hq as [es' ms' e He|es' ms' n2 es3 sub2 q2 Hin2 Hq2]; subst.
      * apply in_concat. exists (map (fun e => GEnum [n; e]) es2). split.
        -- apply in_map_iff. exists (MT n es2 sub). auto.
        -- apply in_map_iff. eauto.
      * cbn in L. inversion Hq2; subst; cbn in L; lia.
Qed.

Definition mname (m : mtree) : bytes := match m with MT n _ _ => n end.
Lemma declares_first : forall m p, declares_msg [m] p -> exists q, p = mname m :: q.
Proof. intros m p H. inversion H as [ms n es sub Hin|ms n es sub q Hin Hq]; subst; destruct Hin as [->|[]]; eexists; reflexivity. Qed.

Lemma msgs_nodup : forall ms path, NoDup (map mname ms) -> Forall (fun m => forall path, NoDup (msg_gen path m)) ms ->
  NoDup (concat (map (msg_gen path) ms)).
Proof.
  induction ms as [|m ms IH]; intros path ND F; [constructor|]. cbn [map concat].
  inversion ND as [|? ? Hn ND']; subst. inversion F as [|? ? Fm F']; subst.
  apply NoDup_app_iff. split; [apply Fm|]. split; [apply IH; assumption|].
  intros d Hd Hc. apply msg_gen_in in Hd. destruct Hd as (q & -> & Hq). apply declares_first in Hq. destruct Hq as (q' & ->).
  apply in_msgs in Hc. destruct Hc as (m' & Hm' & Hc). apply msg_gen_in in Hc. destruct Hc as (q2 & E & Hq2).
  apply declares_first in Hq2. destruct Hq2 as (q3 & ->). injection E as E. apply app_inv_head in E. injection E as E _.
  apply Hn. rewrite E. apply in_map, Hm'.
Qed.
Lemma msg_gen_nodup : forall m, (match m with MT _ es ms => distinct_names es ms end) -> forall path, NoDup (msg_gen path m).
Proof.
  induction m as [n es ms IH] using mtree_ind'. intros D path. cbn [msg_gen]. inversion D as [es' ms' D1 D2 D3]; subst.
  constructor.
  - rewrite in_msgs. intros (m & Hm & H). apply msg_gen_in in H. destruct H as (q & E & H). apply declares_first in H. destruct H as (q' & ->).
    injection E as E. rewrite <- (app_nil_r (path ++ [n])) in E at 1. apply app_inv_head in E. discriminate.
  - apply msgs_nodup; [exact D2|]. rewrite Forall_forall in *. intros [n' es' sub] Hm. apply (IH _ Hm). exact (D3 _ _ _ Hm).
Qed.
Lemma ProtoGen_nodup : forall es ms, distinct_names es ms -> NoDup (ProtoGen es ms).
Proof.
  intros es ms D. inversion D as [es' ms' D1 D2 D3]; subst. unfold ProtoGen. rewrite !NoDup_app_iff.
  split; [|split; [split; [|split]|]].
  - apply map_inj_nodup; [intros a b E; injection E; auto|exact D1].
  - clear D. induction ms as [|[n e s] ms IH]; [constructor|]. cbn [map concat].
    cbn [map] in D2. inversion D2 as [|? ? Hn D2']; subst. apply NoDup_app_iff. split; [|split].
    + apply map_inj_nodup; [intros a b E; injection E; auto|].
      specialize (D3 n e s (or_introl eq_refl)). inversion D3; assumption.
    + apply IH; [exact D2'|]. intros; eapply D3; right; eassumption.
    + intros d Hd Hc. apply in_map_iff in Hd. destruct Hd as (x & <- & _).
      apply in_concat in Hc. destruct Hc as (l & Hl & H). apply in_map_iff in Hl. destruct Hl as ([n' e' s'] & <- & Hin).
      apply in_map_iff in H. destruct H as (y & E & _). injection E as -> _. apply Hn.
      apply in_map_iff. exists (MT n e' s'). auto.
  - apply msgs_nodup; [exact D2|]. rewrite Forall_forall. intros [n e s] Hm. apply msg_gen_nodup. exact (D3 _ _ _ Hm).
  - intros d Hd Hc. apply in_concat in Hd. destruct Hd as (l & Hl & H). apply in_map_iff in Hl. destruct Hl as ([n' e' s'] & <- & Hin).
    apply in_map_iff in H. destruct H as (y & <- & _). apply in_msgs in Hc. destruct Hc as (m & _ & Hc).
    apply msg_gen_in in Hc. destruct Hc as (q & E & _). discriminate.
  - intros d Hd Hc. apply in_map_iff in Hd. destruct Hd as (x & <- & Hx). apply in_app_or in Hc. destruct Hc as [Hc|Hc].
    + apply in_concat in Hc. destruct Hc as (l & Hl & H). apply in_map_iff in Hl. destruct Hl as ([n' e' s'] & <- & Hin).
      apply in_map_iff in H. destruct H as (y & E & _). discriminate.
    + apply in_msgs in Hc. destruct Hc as (m & _ & Hc). apply msg_gen_in in Hc. destruct Hc as (q & E & _). discriminate.
Qed.
