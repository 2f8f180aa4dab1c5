(** The scalar, string, packed and map-entry readers against the decoding specification. *)
From Verif Require Import Base Wire WireSpec WireProofs WireConsume WireFacts Coder MapTables Value WireVal Desc MsgSpec ValFacts ScalarProofs Decoder DecSpec.
From Coq Require Import Lia ZifyBool ZifyNat ZifyN Init.Byte.
Open Scope N_scope.

(** [parses f R]: [f] returns [(a, n)] iff the first [n] bytes are in relation [R] with [a];
    otherwise it returns an error. *)
Definition parses {A} (f : bytes -> res (A * nat)) (R : bytes -> A -> Prop) : Prop :=
  (forall p t a, R p a -> f (p ++ t) = Ok (a, length p)) /\
  (forall b, match f b with
             | Ok (a, n) => exists p t, b = p ++ t /\ n = length p /\ R p a
             | Err _ => True
             | _ => False
             end).

Lemma parses_ext : forall {A} f g (R R' : bytes -> A -> Prop), parses f R -> (forall b, g b = f b) ->
  (forall p a, R' p a <-> R p a) -> parses g R'.
Proof.
  intros A f g R R' [H1 H2] E I. split.
  - intros. rewrite E. apply H1. now apply I.
  - intro b. rewrite E. specialize (H2 b). destruct (f b) as [[a n]| | |]; auto.
    destruct H2 as (p & t & ? & ? & ?). exists p, t. rewrite I. auto.
Qed.

Lemma parses_err : forall {A} e, @parses A (fun _ => Err e) (fun _ _ => False).
Proof. intros. split; [easy|]. now intro. Qed.
Lemma parses_fail : forall {A} f (R : bytes -> A -> Prop), (forall b, exists e, f b = Err e) ->
  (forall p a, ~ R p a) -> parses f R.
Proof.
  intros A f R F N. split; [intros p t a HR; now apply N in HR|].
  intro b. destruct (F b) as [e ->]. exact I.
Qed.

Lemma parses_map : forall {A B} (h : A -> B) f R, parses f R ->
  parses (fun b => do (a, n) <- f b; Ok (h a, n)) (fun p c => exists a, R p a /\ c = h a).
Proof.
  intros A B h f R [H1 H2]. split.
  - intros p t c (a & HR & ->). rewrite (H1 _ _ _ HR). reflexivity.
  - intro b. specialize (H2 b). destruct (f b) as [[a n]| | |]; cbn [bind]; auto.
    destruct H2 as (p & t & ? & ? & ?). exists p, t. eauto.
Qed.

Lemma parses_varint : parses ConsumeVarint valid_varint.
Proof.
  split.
  - intros. now apply ConsumeVarint_valid.
  - intro b. destruct (ConsumeVarint_no_panic b) as [H1 H2].
    destruct (ConsumeVarint b) as [[v n]| | |] eqn:E; auto.
    apply ConsumeVarint_iff in E as (s & t & ? & ? & ?). eauto 6.
Qed.

Lemma parses_fixed32 : parses ConsumeFixed32 (fun p v => length p = 4%nat /\ v = le_value p).
Proof.
  split.
  - intros p t v [H ->]. rewrite ConsumeFixed32_app by assumption. now rewrite H.
  - intro b. destruct (ConsumeFixed32_inv b _ eq_refl) as [(s & t & -> & Hl & ->)|(_ & ->)]; [|exact I].
    exists s, t. auto.
Qed.
Lemma parses_fixed64 : parses ConsumeFixed64 (fun p v => length p = 8%nat /\ v = le_value p).
Proof.
  split.
  - intros p t v [H ->]. rewrite ConsumeFixed64_app by assumption. now rewrite H.
  - intro b. destruct (ConsumeFixed64_inv b _ eq_refl) as [(s & t & -> & Hl & ->)|(_ & ->)]; [|exact I].
    exists s, t. auto.
Qed.
Lemma parses_bytes : parses ConsumeBytes (fun p s => exists l, p = l ++ s /\ valid_varint l (blen s)).
Proof.
  split.
  - intros p t s (l & -> & H). rewrite <- app_assoc, ConsumeBytes_valid by assumption. now rewrite app_length.
  - intro b. destruct (ConsumeBytes_safe b) as [H1 H2].
    destruct (ConsumeBytes b) as [[s n]| | |] eqn:E; auto.
    apply ConsumeBytes_inv in E as (l & t & -> & -> & H). exists (l ++ s), t.
    rewrite <- app_assoc, app_length. eauto.
Qed.

(** ** Scalars *)
Lemma DecodeZigZag_un : forall n, n < 2^64 -> DecodeZigZag n = u64_of (unzigzag n).
Proof.
  intros n H. destruct (DecodeZigZag_spec n H) as [H1 H2].
  assert (Z : int64_of (DecodeZigZag n) = unzigzag n).
  { apply zigzag_inj. rewrite H2. unfold zigzag, unzigzag.
    destruct (N.even n) eqn:E.
    - apply N.even_spec in E as [m ->]. destruct (0 <=? Z.of_N (2 * m / 2))%Z eqn:E2; lia.
    - rewrite <- N.negb_odd in E. apply negb_false_iff, N.odd_spec in E as [m ->].
      destruct (0 <=? - Z.of_N ((2 * m + 1 + 1) / 2))%Z eqn:E2; lia. }
  rewrite <- Z. unfold u64_of, int64_of. destruct (DecodeZigZag n <? 2^63) eqn:E; lia.
Qed.
Lemma wrap32_u64 : forall z, wrap32 (u64_of z) = u32_of z.
Proof.
  intro z. unfold wrap32, u64_of, u32_of.
  assert (A : (z mod 2^32 = (z mod 2^64) mod 2^32)%Z).
  { change (2^64)%Z with (2^32 * 2^32)%Z. rewrite Z.rem_mul_r by lia.
    rewrite (Z.mul_comm (2^32)), Z.mod_add by lia. now rewrite Z.mod_mod by lia. }
  rewrite A. assert (0 <= z mod 2^64)%Z by (apply Z.mod_pos_bound; lia).
  rewrite (Z2N.inj_mod (z mod 2^64)) by lia. reflexivity.
Qed.

Lemma land_1 : forall n, N.land n 1 = n mod 2.
Proof. intro n. change 1 with (N.ones 1). now rewrite N.land_ones. Qed.

(** The number read as [k] by a varint. *)
Lemma store_varint_spec : forall tag k n v, scalar_ok tag k = true -> is_varint_tag tag = true -> n < 2^64 ->
  store_varint (RScalar k) (match tag with TagZigZag32 | TagZigZag64 => DecodeZigZag n | _ => n end) v
  = VNum (varint_store tag k n).
Proof.
  intros tag k n v H1 H2 H3.
  destruct tag; try discriminate H2; destruct k; try discriminate H1; cbn [store_varint varint_store];
    rewrite ?DecodeZigZag_un by assumption; rewrite ?wrap32_u64, ?land_1; reflexivity.
Qed.

Lemma varint_store_ok : forall tag k n, scalar_ok tag k = true -> is_varint_tag tag = true -> n < 2^64 ->
  num_ok k (varint_store tag k n).
Proof.
  intros tag k n H1 H2 H3. unfold num_ok.
  destruct tag; try discriminate H2; destruct k; try discriminate H1; cbn [varint_store skind_size]; (split; [|try discriminate]).
  all: change (2 ^ (8 * 4)) with (2^32) in *; change (2 ^ (8 * 8)) with (2^64) in *; change (2 ^ (8 * 1)) with (2^8) in *.
  all: try assumption; try (apply N.mod_upper_bound; discriminate).
  - assert (n mod 2 < 2) by (apply N.mod_upper_bound; discriminate). lia.
  - intros _. apply N.mod_upper_bound; discriminate.
  - unfold u32_of. assert (0 <= unzigzag n mod 2^32 < 2^32)%Z by (apply Z.mod_pos_bound; lia). lia.
  - unfold u64_of. assert (0 <= unzigzag n mod 2^64 < 2^64)%Z by (apply Z.mod_pos_bound; lia). lia.
Qed.

Lemma varint_tag_in : forall tag, is_varint_tag tag = true <-> In tag [TagVarint; TagZigZag32; TagZigZag64].
Proof. intros []; cbn; intuition; discriminate. Qed.

Lemma reads_scalar_ok : forall raw tag k typ p n, scalar_ok tag k = true -> reads_scalar raw tag k typ p n -> num_ok k n.
Proof.
  intros raw tag k typ p n H R. destruct R as [p n T V _|c _ ->|p -> L|p -> L].
  - apply varint_store_ok; [assumption|now apply varint_tag_in|apply V].
  - split; [|intros _]; destruct (b2n c =? 0); reflexivity.
  - pose proof (le_value_lt p) as B. unfold blen in B. rewrite L in B.
    destruct k; try discriminate H; split; try discriminate; exact B.
  - pose proof (le_value_lt p) as B. unfold blen in B. rewrite L in B.
    destruct k; try discriminate H; split; try discriminate; exact B.
Qed.

(** dec_scalar, when it applies. *)
Lemma dec_scalar_spec : forall tag k typ x, scalar_ok tag k = true ->
  (forall b, dec_scalar tag (TScalar k) typ b x = None) /\ (forall p n, ~ reads_scalar false tag k typ p n) \/
  exists g, (forall b, dec_scalar tag (TScalar k) typ b x = Some (g b)) /\
    parses g (fun p v => exists n, v = VNum n /\ reads_scalar false tag k typ p n).
Proof.
  intros tag k typ x H. unfold dec_scalar. cbn [kindOf]. unfold WVarint, WFixed32, WFixed64.
  destruct (N.eqb_spec typ 0) as [->|N0].
  { right. destruct (is_varint_tag tag) eqn:T; cbn [negb].
    - eexists. split; [reflexivity|]. eapply parses_ext.
      + apply (parses_map (fun n => VNum (varint_store tag k n))), parses_varint.
      + intro b. cbv beta. destruct (ConsumeVarint b) as [[v n]| | |] eqn:E; cbn [bind]; auto.
        cbv zeta. rewrite store_varint_spec; auto. now apply ConsumeVarint_inv in E.
      + intros p v. split.
        * intros (n & -> & R). inversion R; subst; try discriminate. eauto.
        * intros (n & V & ->). eexists. split; [reflexivity|]. constructor; auto. now apply varint_tag_in.
    - eexists. split; [reflexivity|]. eapply parses_ext; [apply parses_err|reflexivity|].
      intros p v. split; [|easy]. intros (n & -> & R). inversion R as [? ? A| | |]; subst; try discriminate.
      apply varint_tag_in in A. congruence. }
  destruct (N.eqb_spec typ 5) as [->|N5].
  { right. destruct (tag_eqb tag TagFixed32) eqn:T; cbn [negb].
    - assert (tag = TagFixed32) as -> by (destruct tag; easy). eexists. split; [reflexivity|]. eapply parses_ext.
      + apply (parses_map VNum), parses_fixed32.
      + intro b. cbv beta. destruct (ConsumeFixed32 b) as [[v n]| | |] eqn:E; cbn [bind]; auto.
        destruct k; try discriminate H; reflexivity.
      + intros p v. split.
        * intros (n & -> & R). inversion R; subst. eauto.
        * intros (n & (L & ->) & ->). eexists. split; [reflexivity|]. now constructor.
    - eexists. split; [reflexivity|]. eapply parses_ext; [apply parses_err|reflexivity|].
      intros p v. split; [|easy]. intros (n & -> & R). inversion R; subst; discriminate. }
  destruct (N.eqb_spec typ 1) as [->|N1].
  { right. destruct (tag_eqb tag TagFixed64) eqn:T; cbn [negb].
    - assert (tag = TagFixed64) as -> by (destruct tag; easy). eexists. split; [reflexivity|]. eapply parses_ext.
      + apply (parses_map VNum), parses_fixed64.
      + intro b. cbv beta. destruct (ConsumeFixed64 b) as [[v n]| | |] eqn:E; cbn [bind]; auto.
        destruct k; try discriminate H; reflexivity.
      + intros p v. split.
        * intros (n & -> & R). inversion R; subst. eauto.
        * intros (n & (L & ->) & ->). eexists. split; [reflexivity|]. now constructor.
    - eexists. split; [reflexivity|]. eapply parses_ext; [apply parses_err|reflexivity|].
      intros p v. split; [|easy]. intros (n & -> & R). inversion R; subst; discriminate. }
  left. split; [reflexivity|]. intros p n R. inversion R; subst; congruence.
Qed.

(** With a TagBytes field the scalar cases only reject. *)
Lemma dec_scalar_bytes : forall t typ b x,
  dec_scalar TagBytes t typ b x = Some (Err EWireType) \/
  dec_scalar TagBytes t typ b x = None /\ typ <> 0 /\ typ <> 5 /\ typ <> 1.
Proof.
  intros. unfold dec_scalar. cbn [is_varint_tag tag_eqb negb]. unfold WVarint, WFixed32, WFixed64.
  destruct (N.eqb_spec typ 0), (N.eqb_spec typ 5), (N.eqb_spec typ 1); auto 6.
Qed.

(** ** Scalars, strings and bytes *)
Definition leaf_read (tag : tagtype) (t : gotype) (typ : N) (b : bytes) (x : val) : res (val * nat) :=
  match dec_scalar tag t typ b x with
  | Some r => r
  | None =>
      if typ =? WBytes then
        do (fb, n) <- ConsumeBytes b;
        match t with
        | TBytes => Ok (VBytes (Some fb), n)
        | TString => Ok (VStr fb, n)
        | _ => Err EWireType
        end
      else Err EWireType
  end.

Lemma reads_scalar_inv : forall E D raw tag k typ p x v, reads E D raw tag (TScalar k) typ p x v <->
  exists n, v = VNum n /\ reads_scalar raw tag k typ p n.
Proof.
  split.
  - intro R. inversion R; subst. eauto.
  - intros (n & -> & R). now constructor.
Qed.
Lemma reads_string_inv : forall E D raw tag typ p x v, reads E D raw tag TString typ p x v <->
  typ = 2 /\ exists l s, p = l ++ s /\ valid_varint l (blen s) /\ v = VStr s.
Proof.
  split.
  - intro R. inversion R; subst. eauto 8.
  - intros (-> & l & s & -> & V & ->). now constructor.
Qed.
Lemma reads_bytes_inv : forall E D raw tag typ p x v, reads E D raw tag TBytes typ p x v <->
  typ = 2 /\ exists l s, p = l ++ s /\ valid_varint l (blen s) /\ v = VBytes (Some s).
Proof.
  split.
  - intro R. inversion R; subst. eauto 8.
  - intros (-> & l & s & -> & V & ->). now constructor.
Qed.

Lemma leaf_read_spec : forall E D tag t typ x, leaf_ok tag t = true ->
  parses (fun b => leaf_read tag t typ b x) (fun p v => reads E D false tag t typ p x v).
Proof.
  intros E D tag t typ x H. destruct t as [k| | | | | | | |]; try discriminate H.
  - cbn [leaf_ok] in H. destruct (dec_scalar_spec tag k typ x H) as [[N R]|(g & G & PG)].
    + apply parses_fail.
      * intro b. unfold leaf_read. rewrite N. destruct (typ =? WBytes) eqn:T; [|eauto].
        destruct (ConsumeBytes_safe b) as [H1 H2].
        destruct (ConsumeBytes b) as [[fb n]| | |] eqn:C; cbn [bind]; eauto; easy.
      * intros p v X. apply reads_scalar_inv in X as (n & _ & X). now apply R in X.
    + eapply parses_ext; [exact PG| |].
      * intro b. unfold leaf_read. now rewrite G.
      * intros p v. apply reads_scalar_inv.
  - destruct tag; try discriminate H.
    destruct (N.eqb_spec typ 2) as [->|N2].
    + eapply parses_ext; [apply (parses_map VStr), parses_bytes| |].
      * intro b. unfold leaf_read. reflexivity.
      * intros p v. rewrite reads_string_inv. split.
        -- intros (_ & l & s & -> & V & ->). eauto 6.
        -- intros (s & (l & -> & V) & ->). eauto 8.
    + apply parses_fail.
      * intro b. unfold leaf_read. destruct (dec_scalar_bytes TString typ b x) as [->|[-> _]]; [eauto|].
        unfold WBytes. destruct (N.eqb_spec typ 2); [congruence|eauto].
      * intros p v X. apply reads_string_inv in X. easy.
  - destruct tag; try discriminate H.
    destruct (N.eqb_spec typ 2) as [->|N2].
    + eapply parses_ext; [apply (parses_map (fun s => VBytes (Some s))), parses_bytes| |].
      * intro b. unfold leaf_read. reflexivity.
      * intros p v. rewrite reads_bytes_inv. split.
        -- intros (_ & l & s & -> & V & ->). eauto 6.
        -- intros (s & (l & -> & V) & ->). eauto 8.
    + apply parses_fail.
      * intro b. unfold leaf_read. destruct (dec_scalar_bytes TBytes typ b x) as [->|[-> _]]; [eauto|].
        unfold WBytes. destruct (N.eqb_spec typ 2); [congruence|eauto].
      * intros p v X. apply reads_bytes_inv in X. easy.
Qed.

Lemma leaf_reads_typed : forall E Q D raw tag t typ p x v u, leaf_ok tag t = true ->
  reads E D raw tag t typ p x v -> wtg E Q u t v.
Proof.
  intros E Q D raw tag t typ p x v u H R. destruct t as [k| | | | | | | |]; try discriminate H.
  - apply reads_scalar_inv in R as (n & -> & R). cbn. eapply reads_scalar_ok; [exact H|exact R].
  - apply reads_string_inv in R as (_ & l & s & _ & _ & ->). reflexivity.
  - apply reads_bytes_inv in R as (_ & l & s & _ & _ & ->). reflexivity.
Qed.
(** A leaf is overwritten whatever it held. *)
Lemma leaf_reads_any : forall E D D' raw tag t typ p x x' v, leaf_ok tag t = true ->
  reads E D raw tag t typ p x v -> reads E D' raw tag t typ p x' v.
Proof.
  intros E D D' raw tag t typ p x x' v H R. destruct t as [k| | | | | | | |]; try discriminate H.
  - apply reads_scalar_inv in R. now apply reads_scalar_inv.
  - apply reads_string_inv in R. now apply reads_string_inv.
  - apply reads_bytes_inv in R. now apply reads_bytes_inv.
Qed.

(** ** Packed lists *)
Lemma valid_varint_length : forall p n, valid_varint p n -> (1 <= length p <= 10)%nat.
Proof. intros [|c p] n (H1 & H2 & _); [discriminate|cbn in *; lia]. Qed.
Lemma consume_fast : forall b, consume_varint_fast b = ConsumeVarint b.
Proof.
  intro b. rewrite ConsumeVarint_rec. unfold consume_varint_fast.
  destruct b as [|b0 [|b1 b]]; [reflexivity| |].
  - destruct (b2n b0 <? 128) eqn:E0; [cbn [cvarint]; now rewrite E0|]. now rewrite ConsumeVarint_rec.
  - destruct (b2n b0 <? 128) eqn:E0; [cbn [cvarint]; now rewrite E0|].
    destruct (b2n b1 <? 128) eqn:E1; [|now rewrite ConsumeVarint_rec].
    cbn [cvarint]. rewrite E0, E1. cbn [bind]. do 2 f_equal.
    pose proof (b2n_lt b0). change 127 with (N.ones 7). rewrite N.land_ones, N.shiftl_mul_pow2.
    change (2^7) with 128. lia.
Qed.

(** [f] reads exactly the concatenations of elements in [R]. *)
Definition parses_all {A} (f : bytes -> res (list A)) (R : bytes -> A -> Prop) : Prop :=
  (forall ps l, Forall2 R ps l -> f (concat ps) = Ok l) /\
  (forall b, match f b with
             | Ok l => exists ps, b = concat ps /\ Forall2 R ps l
             | Err _ => True
             | _ => False
             end).
Lemma parses_all_ext : forall {A} f g (R R' : bytes -> A -> Prop), parses_all f R -> (forall b, g b = f b) ->
  (forall p a, R' p a <-> R p a) -> parses_all g R'.
Proof.
  intros A f g R R' [H1 H2] E I. split.
  - intros ps l F. rewrite E. apply H1. clear -F I. induction F; constructor; [now apply I|assumption].
  - intro b. rewrite E. specialize (H2 b). destruct (f b) as [l| | |]; auto.
    destruct H2 as (ps & ? & F). exists ps. split; [assumption|].
    clear -F I. induction F; constructor; [now apply I|assumption].
Qed.

Lemma parses_varints : forall conv,
  parses_all (fun b => packed_varints (length b) conv b) (fun p n => exists m, valid_varint p m /\ n = conv m).
Proof.
  intro conv. split.
  - intros ps l F.
    enough (A : forall fuel, (length (concat ps) <= fuel)%nat -> packed_varints fuel conv (concat ps) = Ok l)
      by now apply A.
    induction F as [|p n ps l (m & V & ->) F IH]; intros fuel L; [destruct fuel; reflexivity|].
    cbn [concat] in *. rewrite app_length in L. pose proof (valid_varint_length _ _ V) as Lp.
    destruct p as [|c p]; [cbn in Lp; lia|]. destruct fuel as [|fuel]; [cbn [length] in L; lia|].
    cbn [packed_varints app]. rewrite consume_fast. change (c :: p ++ concat ps) with ((c :: p) ++ concat ps).
    rewrite (ConsumeVarint_valid _ _ _ V), slice_from_app. cbn [bind]. rewrite IH by (cbn [length] in L; lia).
    reflexivity.
  - intro b.
    enough (A : forall fuel b, (length b <= fuel)%nat -> match packed_varints fuel conv b with
      | Ok l => exists ps, b = concat ps /\ Forall2 (fun p n => exists m, valid_varint p m /\ n = conv m) ps l
      | Err _ => True | _ => False end) by (now apply A).
    clear b. induction fuel as [|fuel IH]; intros [|c b] L; cbn [packed_varints].
    1, 3: exists []; auto.
    1: cbn in L; lia.
    rewrite consume_fast. destruct (ConsumeVarint_no_panic (c :: b)) as [H1 H2].
    destruct (ConsumeVarint (c :: b)) as [[v n]| | |] eqn:C; auto.
    apply ConsumeVarint_iff in C as (s & t & E & <- & V). rewrite E, slice_from_app. cbn [bind].
    pose proof (valid_varint_length _ _ V) as Lp.
    specialize (IH t). rewrite E, app_length in L. specialize (IH ltac:(lia)).
    destruct (packed_varints fuel conv t) as [l| | |]; cbn [bind]; auto.
    destruct IH as (ps & -> & F). exists (s :: ps). split; [reflexivity|]. constructor; eauto.
Qed.

Lemma parses_fixeds : forall k (consume : bytes -> res (N * nat)), (0 < k)%nat ->
  parses consume (fun p v => length p = k /\ v = le_value p) ->
  (forall b, (k <= length b)%nat -> exists v n, consume b = Ok (v, n)) ->
  parses_all (fun b => if N.of_nat (length b) mod N.of_nat k =? 0 then packed_fixed (length b) consume b else Err EUnexpectedEOF)
    (fun p v => length p = k /\ v = le_value p).
Proof.
  intros k consume K [C1 C2] C3.
  assert (LM : forall ps l, Forall2 (fun p v => length p = k /\ v = le_value p) ps l ->
     N.of_nat (length (concat ps)) mod N.of_nat k = 0).
  { induction 1 as [|p n ps l [L _] F IH]; [apply N.mod_0_l; lia|].
    cbn [concat]. rewrite app_length, L. replace (N.of_nat (k + length (concat ps))) with (N.of_nat (length (concat ps)) + 1 * N.of_nat k) by lia.
    now rewrite N.mod_add by lia. }
  split.
  - intros ps l F. rewrite (LM _ _ F). cbn [N.eqb].
    enough (A : forall fuel, (length (concat ps) <= fuel)%nat -> packed_fixed fuel consume (concat ps) = Ok l)
      by now apply A.
    clear LM. induction F as [|p n ps l [Lp ->] F IH]; intros fuel L; [destruct fuel; reflexivity|].
    cbn [concat] in *. rewrite app_length in L.
    destruct p as [|c p]; [cbn in Lp; lia|]. destruct fuel as [|fuel]; [cbn [length] in L; lia|].
    cbn [packed_fixed app]. change (c :: p ++ concat ps) with ((c :: p) ++ concat ps).
    rewrite (C1 (c :: p) _ (le_value (c :: p))) by auto. rewrite slice_from_app. cbn [bind].
    rewrite IH by (cbn [length] in L; lia). reflexivity.
  - intro b. destruct (N.eqb_spec (N.of_nat (length b) mod N.of_nat k) 0) as [M|]; [|exact I].
    enough (A : forall fuel b, (length b <= fuel)%nat -> N.of_nat (length b) mod N.of_nat k = 0 ->
      match packed_fixed fuel consume b with
      | Ok l => exists ps, b = concat ps /\ Forall2 (fun p v => length p = k /\ v = le_value p) ps l
      | Err _ => True | _ => False end) by (now apply A).
    clear b M. induction fuel as [|fuel IH]; intros [|c b] L M; cbn [packed_fixed].
    1, 3: exists []; auto.
    1: cbn in L; lia.
    assert (KL : (k <= length (c :: b))%nat).
    { apply N.mod_divide in M as [q Hq]; [|lia]. destruct (N.eq_dec q 0) as [->|]; [cbn [length] in Hq; lia|].
      nia. }
    destruct (C3 _ KL) as (v & n & E). rewrite E. specialize (C2 (c :: b)). rewrite E in C2.
    destruct C2 as (p & t & E' & -> & Lp & ->). rewrite E', slice_from_app. cbn [bind].
    rewrite E', app_length in L, M. specialize (IH t ltac:(lia)).
    replace (N.of_nat (length p + length t)) with (N.of_nat (length t) + 1 * N.of_nat k) in M by lia.
    rewrite N.mod_add in M by lia. specialize (IH M).
    destruct (packed_fixed fuel consume t) as [l| | |]; cbn [bind]; auto.
    destruct IH as (ps & -> & F). exists (p :: ps). split; [reflexivity|]. constructor; auto.
Qed.

Lemma parses_bools : parses_all DecodePackedBool (fun p n => exists c, p = [c] /\ n = if b2n c =? 0 then 0 else 1).
Proof.
  split.
  - intros ps l F. unfold DecodePackedBool. f_equal. induction F as [|p n ps l (c & -> & ->) F IH]; [reflexivity|].
    cbn [concat app map]. rewrite IH. f_equal. destruct (b2n c =? 0) eqn:E1, (0 <? b2n c) eqn:E2; lia || reflexivity.
  - intro b. unfold DecodePackedBool. exists (map (fun c => [c]) b). split.
    + induction b as [|c b IH]; [reflexivity|]. cbn [map concat app]. now f_equal.
    + induction b as [|c b IH]; [constructor|]. cbn [map]. constructor; [|assumption].
      exists c. split; [reflexivity|]. destruct (b2n c =? 0) eqn:E1, (0 <? b2n c) eqn:E2; lia || reflexivity.
Qed.

(** C27: the packed decoder of every scalar type. *)
Lemma packed_decoder : forall tag k, scalar_ok tag k = true ->
  exists g, packedDecoderFuncs (getCoderType tag (RScalar k)) = Some g /\
    parses_all g (reads_scalar true tag k (tag_wtype tag)).
Proof.
  assert (V : forall tag k, In tag [TagVarint; TagZigZag32; TagZigZag64] -> k <> Bool -> forall conv,
     (forall n, n < 2^64 -> conv n = varint_store tag k n) -> forall p a,
     reads_scalar true tag k 0 p a <-> exists m, valid_varint p m /\ a = conv m).
  { intros tag k T K conv C p a. split.
    - intro R. inversion R; subst; try congruence. exists n. split; [assumption|]. symmetry. apply C.
      match goal with H : valid_varint _ _ |- _ => apply H end.
    - intros (m & VM & ->). rewrite C by apply VM. now constructor; auto. }
  assert (F4 : parses_all DecodePackedFixed32 (fun p v => length p = 4%nat /\ v = le_value p)).
  { eapply parses_all_ext; [apply (parses_fixeds 4 ConsumeFixed32); [lia|apply parses_fixed32|]| |reflexivity].
    - intros b L. destruct (ConsumeFixed32_inv b _ eq_refl) as [(s & t & _ & _ & ->)|(X & _)]; [eauto|lia].
    - intro b. unfold DecodePackedFixed32. change 3 with (N.ones 2). now rewrite N.land_ones. }
  assert (F8 : parses_all DecodePackedFixed64 (fun p v => length p = 8%nat /\ v = le_value p)).
  { eapply parses_all_ext; [apply (parses_fixeds 8 ConsumeFixed64); [lia|apply parses_fixed64|]| |reflexivity].
    - intros b L. destruct (ConsumeFixed64_inv b _ eq_refl) as [(s & t & _ & _ & ->)|(X & _)]; [eauto|lia].
    - intro b. unfold DecodePackedFixed64. change 7 with (N.ones 3). now rewrite N.land_ones. }
  intros tag k H. destruct tag, k; try discriminate H; cbn [getCoderType packedDecoderFuncs tag_wtype];
    (eexists; split; [reflexivity|]).
  all: try (eapply parses_all_ext; [exact F4|reflexivity|]; intros p a; split;
            [intro R; inversion R; subst; auto; discriminate|intros [L ->]; now constructor]).
  all: try (eapply parses_all_ext; [exact F8|reflexivity|]; intros p a; split;
            [intro R; inversion R; subst; auto; discriminate|intros [L ->]; now constructor]).
  all: try (eapply parses_all_ext; [apply parses_varints|reflexivity|]; apply V;
            [cbn; auto|discriminate|]; intros n Hn; cbn [varint_store]; rewrite ?DecodeZigZag_un by assumption;
            rewrite ?wrap32_u64; reflexivity).
  eapply parses_all_ext; [apply parses_bools|reflexivity|].
  intros p a. split.
  - intro R. inversion R; subst; try discriminate; eauto.
    match goal with H : _ \/ _ |- _ => destruct H; congruence end.
  - intros (c & -> & ->). now constructor.
Qed.
