(** The decoder on memory (HDecoder.v) does what the decoder on values (Decoder.v) does. *)
From Coq Require Import Lia.
From Verif Require Import Base Wire Coder MapTables Value WireVal Desc Encoder Decoder MsgSpec WireConsume ValFacts DescProofs
  HMem HDecoder OwnSpec OwnMem OwnPost OwnCell.
Open Scope nat_scope.

(** ** Slices of the input *)
Lemma hslice_from_spec : forall h b n, valid_in h b ->
  match hslice_from b n, slice_from (rd h b) n with
  | Ok s, Ok r => s_arr s = s_arr b /\ valid_in h s /\ rd h s = r
  | Panic, Panic => True
  | _, _ => False
  end.
Proof.
  intros h b n V. unfold hslice_from, slice_from. rewrite (rd_length _ _ V).
  destruct (n <=? s_len b) eqn:En; [|exact Logic.I]. apply Nat.leb_le in En.
  split; [reflexivity|]. split; [apply valid_sub; [exact V|lia]|].
  rewrite rd_sub by lia. rewrite firstn_all2; [reflexivity|]. rewrite skipn_length, (rd_length _ _ V). lia.
Qed.
Lemma HConsumeBytes_spec : forall h b, valid_in h b ->
  match HConsumeBytes h b, ConsumeBytes (rd h b) with
  | Ok (s, n), Ok (fb, n') => n = n' /\ s_arr s = s_arr b /\ valid_in h s /\ rd h s = fb
  | Err e, Err e' => e = e'
  | Panic, Panic => True
  | OutOfFuel, OutOfFuel => True
  | _, _ => False
  end.
Proof.
  intros h b V. unfold HConsumeBytes. destruct (ConsumeBytes (rd h b)) as [[fb n]| | |] eqn:EC; cbn [bind]; auto.
  apply ConsumeBytes_inv in EC as (l & t & Eb & -> & _).
  assert (Hl : length l + length fb + length t = s_len b).
  { rewrite <- (rd_length _ _ V), Eb, !app_length. lia. }
  replace (length l + length fb - length fb) with (length l) by lia.
  split; [reflexivity|]. split; [reflexivity|]. split; [apply valid_sub; [exact V|lia]|].
  rewrite rd_sub by lia. rewrite Eb. rewrite skipn_app, skipn_all, Nat.sub_diag. cbn.
  rewrite firstn_app, firstn_all, Nat.sub_diag. cbn. now rewrite app_nil_r.
Qed.

(** ** Contents without references *)
Section Zero.
Variable E : env.
Hypothesis WF : wf_env E.
Lemma zero_owns : forall v t, zero_of E t = v -> forall h A, owns h A [] (embed v) v.
Proof.
  assert (St : forall id w, sd_zero (E id) = w -> w = VStruct (map (zero_of E) (sd_slots (E id))) None).
  { intros id w <-. apply (wf_zero _ _ (WF id)). }
  intro v. induction v as [|n|s|s|p IH|e sp IH1 IH2|m IH|l u IH|i IH] using val_ind'; intros t Ht h A; cbn [embed];
    destruct t as [k| | |id|t'|t'|k' v'|alts|]; cbn [zero_of] in Ht; try discriminate Ht; try (apply St in Ht; discriminate Ht).
  - injection Ht as <-. constructor; [exact Logic.I|constructor].
  - injection Ht as <-. constructor; [exact Logic.I|constructor].
  - injection Ht as <-. constructor; [exact Logic.I|].
    replace (VStr []) with (VStr (rd h nil_slice)) by reflexivity. constructor. now left.
  - injection Ht as <-. constructor; [exact Logic.I|constructor].
  - injection Ht as <-. constructor; [exact Logic.I|constructor].
  - injection Ht as <- <-. apply owns_noslice; reflexivity.
  - injection Ht as <-. apply owns_nomap.
  - apply St in Ht. injection Ht as -> ->. change (@nil nat) with (@nil nat ++ @nil nat). apply owns_struct; [|constructor].
    induction (sd_slots (E id)) as [|t ts IHt]; cbn [map]; [constructor|]. cbn [map] in IH. inversion IH; subst.
    change (@nil nat) with (@nil nat ++ @nil nat). constructor; [|now apply IHt]. now apply (H1 t).
  - injection Ht as <-. constructor; [exact Logic.I|constructor].
Qed.
Lemma fresh_owns : forall t h A, owns h A [] (hfresh E t) (fresh E t).
Proof.
  intros t h A. unfold hfresh, fresh. destruct (noscan t); [constructor; [exact Logic.I|constructor]|].
  now apply (zero_owns _ t).
Qed.
End Zero.

(** ** Shapes *)
Definition mkind (x : mv) : nat :=
  match x with MUninit => 0 | MNum _ => 1 | MStr _ => 2 | MBytes _ => 3 | MPtr _ => 4 | MSlice _ => 5 | MMap _ => 6 | MStruct _ _ => 7 | MIface _ => 8 end.
Definition vkind (x : val) : nat :=
  match x with VUninit => 0 | VNum _ => 1 | VStr _ => 2 | VBytes _ => 3 | VPtr _ => 4 | VSlice _ _ => 5 | VMap _ => 6 | VStruct _ _ => 7 | VIface _ => 8 end.
Lemma owns_kind : forall h A W x v, owns h A W x v -> mkind x = vkind v.
Proof. intros h A W x v H. destruct H; try reflexivity. now destruct H0. Qed.
Lemma owns_map_inv : forall h A W m w, owns h A W (MMap m) (VMap w) ->
  (m = None /\ w = None /\ W = []) \/
  exists o ents mm, m = Some o /\ w = Some mm /\ W = [o] /\ objs h o = OMap ents /\ reads_entries h A ents mm.
Proof.
  intros h A W m w H. remember (MMap m) as x. remember (VMap w) as v.
  destruct H as [? ? Lf ?| | | |o ents mm Ho He|]; subst; try discriminate.
  - now destruct Lf.
  - injection Heqx as <-. injection Heqv as <-. now left.
  - injection Heqx as <-. injection Heqv as <-. right. exists o, ents, mm. auto.
Qed.
Lemma owns_struct_inv : forall h A W xs u vs ub, owns h A W (MStruct xs u) (VStruct vs ub) ->
  exists W1 W2, W = W1 ++ W2 /\ owns_all h A W1 xs vs /\ owns_unknown h W2 u ub.
Proof.
  intros h A W xs u vs ub H. remember (MStruct xs u) as st. remember (VStruct vs ub) as sv.
  destruct H as [? ? Lf ?| | | | |xs0 vs0 u0 ub0 W1 W2 H1 H2]; subst; try discriminate; [now destruct Lf|].
  injection Heqst as -> ->. injection Heqsv as -> ->. now exists W1, W2.
Qed.
Lemma owns_slice_inv : forall h A W s es sp, owns h A W (MSlice s) (VSlice es sp) ->
  (s_len s = 0 /\ s_cap s = 0 /\ es = [] /\ sp = [] /\ W = []) \/
  exists xs ys W1, W = s_arr s :: W1 /\ 0 < s_cap s /\ has_cells h s xs ys /\ reads_all h A xs es /\ owns_all h A W1 ys sp.
Proof.
  intros h A W s es sp H. remember (MSlice s) as x. remember (VSlice es sp) as v.
  destruct H as [? ? Lf ?|s0 Z1 Z2|s0 xs ys es0 sp0 W1 Z1 Z2 Z3 Z4| | |]; subst; try discriminate.
  - now destruct Lf.
  - injection Heqx as ->. injection Heqv as -> ->. left. auto.
  - injection Heqx as ->. injection Heqv as -> ->. right. exists xs, ys, W1. auto.
Qed.

(** ** Map entries *)
Lemma hkey_eqb_spec : forall h A k kv k' kv', reads h A k kv -> reads h A k' kv' -> hkey_eqb h k k' = key_eqb kv kv'.
Proof. intros h A k kv k' kv' H K. destruct H, K; reflexivity. Qed.
Lemma hmap_set_spec : forall h A k kv x v, reads h A k kv -> reads h A x v ->
  forall ents m, reads_entries h A ents m -> reads_entries h A (hmap_set h ents k x) (map_set m kv v).
Proof.
  intros h A k kv x v Hk Hx ents m H.
  induction H as [|k' kv' x' v' xs vs H1 H2 H3 IH]; cbn [hmap_set map_set].
  - constructor; [exact Hk|exact Hx|constructor].
  - rewrite (hkey_eqb_spec _ _ _ _ _ _ H1 Hk). destruct (key_eqb kv' kv); constructor; auto.
Qed.

Lemma post_mapmake : forall h A W L b T, pre h A W (MMap None) (VMap None) L b T ->
  post h A W L T (hstore (fst (halloc h (OMap []))) L (MMap (Some (next h)))) (MMap (Some (next h))) (VMap (Some [])) A [next h] T.
Proof.
  intros h A W L b T P. eapply post_store; [exact P|apply allocs_halloc| | | | |].
  - apply owns_map with (ents := []); [apply halloc_new|constructor].
  - now intros o Ho.
  - intros o Ho. rewrite halloc_next. apply (p_A _ _ _ _ _ _ _ _ P) in Ho as K. split; [now left|lia].
  - constructor; [intro Z; exact Z|constructor].
  - intros o [<-|[]]. rewrite halloc_next. split; [lia|]. intro K. apply (p_A _ _ _ _ _ _ _ _ P) in K. lia.
Qed.
Lemma post_mapset : forall h A W o m L b T k kv x v, pre h A W (MMap (Some o)) (VMap (Some m)) L b T ->
  reads h A k kv -> reads h A x v ->
  post h A W L T (set_obj h o (OMap (hmap_set h (map_of h o) k x))) (MMap (Some o)) (VMap (Some (map_set m kv v))) A W T.
Proof.
  intros h A W o m L b T k kv x v P Hk Hx. pose proof (p_owns _ _ _ _ _ _ _ _ P) as O.
  apply owns_map_inv in O as [(? & _)|(o' & ents & mm & Eo & Em & -> & Oo & Re)]; [discriminate|].
  injection Eo as <-. injection Em as <-. unfold map_of. rewrite Oo.
  destruct P as [p1 p2 p3 p4 p5 p6 p7 p8]. destruct (p4 o) as (K1 & K2 & K3 & K4); [now left|].
  assert (SA : same_on A h (set_obj h o (OMap (hmap_set h ents k x)))).
  { intros o' Ho'. apply set_obj_other. intros ->. auto. }
  constructor; auto.
  - eapply owns_map; [apply set_obj_same|]. apply (reads_entries_frame h A _ A SA); [now intros z Hz|].
    now apply hmap_set_spec.
  - rewrite set_obj_other by (intro Z; apply K3; now symmetry). now rewrite store_same.
  - intros z Hz D Wz _. apply set_obj_other. intros ->. apply Wz. now left.
  - now intros z Hz.
  - intros z Hz. split; [now left|]. now apply p5.
  - intros z Hz. destruct (p4 z Hz) as (? & ? & _). auto.
  - intros z Hz. destruct (p8 z Hz) as (? & ? & ? & ? & _). auto.
Qed.

(** ** Outcomes *)

Definition sim {X Y} (h : mem) (A : nat -> Prop) (W : list nat) (L : loc) (T : list nat) (r : hres X) (d : dres Y)
    (R : mem -> X -> Y -> list nat -> Prop) : Prop :=
  match r, d with
  | HOk h' a, DOk v' c => exists x' A' W' T', R h' a c T' /\ post h A W L T h' x' v' A' W' T'
  | HErr h' e, DErr v' e' => e = e' /\ exists x' A' W', post h A W L T h' x' v' A' W' []
  | HPanic, DPanic => True
  | HFuel, DFuel => True
  | _, _ => False
  end.

Lemma sim_err : forall {X Y} h A W x v L b T (R : mem -> X -> Y -> list nat -> Prop) e, pre h A W x v L b T ->
  sim h A W L T (HErr h e) (DErr v e) R.
Proof.
  intros X Y h A W x v L b T R e P. cbn. split; [reflexivity|]. exists x, A, W.
  eapply post_noT, post_refl, P.
Qed.

(** A step that does not know about [T] *)
Lemma post_T : forall h A W x v L b T h' x' v' A' W', pre h A W x v L b T -> post h A W L [] h' x' v' A' W' [] ->
  post h A W L T h' x' v' A' W' T /\ forall o, In o T -> objs h' o = objs h o.
Proof.
  intros h A W x v L b T h' x' v' A' W' P Q. destruct P as [p1 p2 p3 p4 p5 p6 p7 p8], Q as [q1 q2 q3 q4 q5 q6 q7 q8 q9].
  split.
  - constructor; auto. intros o Ho. destruct (p8 _ Ho) as (K1 & K2 & K3 & K4 & K5).
    split; [now left|]. split; [lia|]. split.
    + intro Z. destruct (q8 _ Z) as ([?|?] & _); [auto|lia].
    + intro Z. destruct (q6 _ Z) as ([?|[?|?]] & _); [auto|auto|lia].
  - intros o Ho. destruct (p8 _ Ho) as (K1 & K2 & K3 & K4 & K5). now apply q4.
Qed.
Lemma pre_noT : forall h A W x v L b T, pre h A W x v L b T -> pre h A W x v L b [].
Proof. intros h A W x v L b T P. destruct P. constructor; auto. intros o []. Qed.

(** ** Scalars *)
Lemma dec_scalar_num : forall tag t typ b v,
  dec_scalar tag t typ b v =
  match scalar_num tag t typ b with
  | None => None
  | Some (Ok (o, n)) => Some (Ok (match o with Some k => VNum k | None => v end, n))
  | Some (Err e) => Some (Err e)
  | Some Panic => Some Panic
  | Some OutOfFuel => Some OutOfFuel
  end.
Proof.
  intros tag t typ b v. unfold dec_scalar, scalar_num.
  destruct (typ =? WVarint)%N.
  { destruct (negb (is_varint_tag tag)); [reflexivity|]. destruct (ConsumeVarint b) as [[u n]| | |]; cbn [bind]; try reflexivity.
    unfold store_varint, num_varint. destruct (kindOf t) as [[]| | | | | | | |]; reflexivity. }
  destruct (typ =? WFixed32)%N.
  { destruct (negb (tag_eqb tag TagFixed32)); [reflexivity|]. destruct (ConsumeFixed32 b) as [[u n]| | |]; cbn [bind]; try reflexivity.
    unfold store_fixed32, num_fixed32. destruct (kindOf t) as [[]| | | | | | | |]; reflexivity. }
  destruct (typ =? WFixed64)%N; [|reflexivity].
  destruct (negb (tag_eqb tag TagFixed64)); [reflexivity|]. destruct (ConsumeFixed64 b) as [[u n]| | |]; cbn [bind]; try reflexivity.
  unfold store_fixed64, num_fixed64. destruct (kindOf t) as [[]| | | | | | | |]; reflexivity.
Qed.
(** A string, []byte or message field never takes a scalar *)
Lemma post_put : forall h A W x v L b T o, pre h A W x v L b T ->
  exists x', post h A W L T (hput h L o) x' (match o with Some k => VNum k | None => v end) A
    (match o with Some _ => [] | None => W end) T.
Proof.
  intros h A W x v L b T [k|] P; cbn [hput].
  - exists (MNum k). eapply post_store; [exact P|apply allocs_refl| | | | |].
    + constructor; [exact Logic.I|constructor].
    + now intros o Ho.
    + intros o Ho. apply (p_A _ _ _ _ _ _ _ _ P) in Ho as K. tauto.
    + constructor.
    + intros o [].
  - exists x. now apply (post_refl _ _ _ _ _ _ b).
Qed.

(** ** Copies *)
Definition plus (A : nat -> Prop) (h h1 : mem) (o : nat) : Prop := A o \/ (next h <= o /\ o < next h1).
Lemma hcopy_spec : forall h fb A, valid_in h fb ->
  allocs h (fst (hcopy h fb)) /\ in_bytes (fst (hcopy h fb)) (plus A h (fst (hcopy h fb))) (snd (hcopy h fb)) /\
  rd (fst (hcopy h fb)) (snd (hcopy h fb)) = rd h fb.
Proof.
  intros h fb A V. unfold hcopy. destruct (s_len fb =? 0) eqn:El.
  - apply Nat.eqb_eq in El. cbn [fst snd]. split; [apply allocs_refl|]. split; [now left|].
    unfold rd. now rewrite El.
  - rewrite halloc_eq. cbn [fst snd]. split; [apply allocs_halloc|]. split.
    + right. split; [right; cbn [s_arr]; rewrite halloc_next; lia|].
      unfold bytes_of. cbn [s_arr s_off s_len]. rewrite halloc_new. rewrite (rd_length _ _ V). cbn. lia.
    + unfold rd at 1, bytes_of at 1. cbn [s_arr s_off s_len skipn]. rewrite halloc_new.
      apply firstn_all2. rewrite (rd_length _ _ V). lia.
Qed.
Lemma post_copy : forall h A W x v L b T fb x' v', pre h A W x v L b T -> valid_in h fb -> leaf x' ->
  (forall A' h', in_bytes h' A' (snd (hcopy h fb)) -> rd h' (snd (hcopy h fb)) = rd h fb -> reads h' A' x' v') ->
  post h A W L T (hstore (fst (hcopy h fb)) L x') x' v' (plus A h (fst (hcopy h fb))) [] T.
Proof.
  intros h A W x v L b T fb x' v' P V Lf R. destruct (hcopy_spec h fb A V) as (Al & I1 & E1).
  eapply post_store; [exact P|exact Al| | | | |].
  - constructor; [exact Lf|]. now apply R.
  - intros o Ho. now left.
  - intros o [Ho|Ho]; [|tauto]. apply (p_A _ _ _ _ _ _ _ _ P) in Ho as K. destruct Al. split; [now left|lia].
  - constructor.
  - intros o [].
Qed.
