(** Proofs about the reading and verification of numbers. *)
From Coq Require Import Strings.String Init.Byte Lia.
From Coq Require Import ZifyBool ZifyNat ZifyN.
From Verif Require Import Base GoStr StrFacts GenField GenSpec GenFieldProofs Verify VerifySpec.
Import StringSyntax.
Open Scope N_scope.

(** ** Literals *)
Lemma digit_of_val : forall base c d, digit_of base c d -> digit_val c = d /\ d < base.
Proof.
  intros base c d H. unfold digit_val. destruct H as [base c A B|base c A B|base c A B].
  - replace ((48 <=? b2n c) && (b2n c <=? 57)) with true by lia. auto.
  - replace ((48 <=? b2n c) && (b2n c <=? 57)) with false by lia.
    replace ((97 <=? b2n c) && (b2n c <=? 102)) with true by lia. auto.
  - replace ((48 <=? b2n c) && (b2n c <=? 57)) with false by lia.
    replace ((97 <=? b2n c) && (b2n c <=? 102)) with false by lia.
    replace ((65 <=? b2n c) && (b2n c <=? 70)) with true by lia. auto.
Qed.
Lemma base_value_snoc : forall base s acc c, base_value base acc (s ++ [c]) =
  match base_value base acc s with
  | Some v => if digit_val c <? base then Some (base * v + digit_val c) else None
  | None => None
  end.
Proof.
  induction s as [|x s IH]; intros acc c; cbn [app base_value]; [reflexivity|].
  destruct (digit_val x <? base); [apply IH|reflexivity].
Qed.
Lemma digits_value : forall base s n, digits_of base s n -> base_value base 0 s = Some n.
Proof.
  induction 1 as [|s n c d H IH D]; [reflexivity|]. rewrite base_value_snoc, IH.
  destruct (digit_of_val _ _ _ D) as [-> L]. replace (d <? base) with true by lia. f_equal. lia.
Qed.
Lemma digits_all : forall base s n, digits_of base s n -> Forall (fun c => digit_val c < base) s.
Proof.
  induction 1 as [|s n c d H IH D]; [constructor|]. apply Forall_app. split; [exact IH|]. constructor; [|constructor].
  destruct (digit_of_val _ _ _ D) as [-> L]. exact L.
Qed.

Definition lit_value (s : bytes) : option N :=
  match s with
  | x30 :: x :: r => if beqb x x78 || beqb x x58 then base_value 16 0 r else base_value 8 0 (x :: r)
  | _ => base_value 10 0 s
  end.
Definition fits (n : N) : option Z := if n <? 2^31 then Some (Z.of_N n) else None.

Lemma not_x : forall x, digit_val x < 8 -> beqb x x78 || beqb x x58 = false.
Proof.
  intros x H. unfold beqb. destruct (b2n x =? b2n x78) eqn:A, (b2n x =? b2n x58) eqn:B; try reflexivity;
    exfalso; apply N.eqb_eq in A || apply N.eqb_eq in B; unfold digit_val in H;
    [rewrite A in H|rewrite A in H|rewrite B in H]; vm_compute in H; discriminate.
Qed.
Lemma lit_nonzero : forall c r, c <> x30 ->
  lit_value (c :: r) = base_value 10 0 (c :: r) /\ UnmarshalI32 (c :: r) = parse_digits 10 (c :: r).
Proof. intros c r H. destruct c; try (split; reflexivity). now destruct H. Qed.
Lemma lit_value_spec : forall s n, int_lit s n -> lit_value s = Some n /\ UnmarshalI32 s = fits n.
Proof.
  intros s n H. destruct H as [s n D (c & r & -> & NZ)|s n D|x s n X D NE].
  - destruct (lit_nonzero c r NZ) as [-> ->]. rewrite (digits_value _ _ _ D). split; [reflexivity|].
    unfold parse_digits. now rewrite (digits_value _ _ _ D).
  - destruct s as [|x r].
    + inversion D as [Q1 Q2|s' n' c d D' E' Q1]; [split; reflexivity|]. destruct s'; discriminate.
    + pose proof (digits_all _ _ _ D) as F. inversion F as [|? ? L _]; subst.
      unfold lit_value, UnmarshalI32. rewrite (not_x x L). rewrite (digits_value _ _ _ D). split; [reflexivity|].
      unfold parse_digits. now rewrite (digits_value _ _ _ D).
  - unfold lit_value, UnmarshalI32.
    replace (beqb x x78 || beqb x x58) with true by (destruct X as [-> | ->]; reflexivity).
    rewrite (digits_value _ _ _ D). split; [reflexivity|]. unfold parse_digits. destruct s; [congruence|].
    now rewrite (digits_value _ _ _ D).
Qed.
Lemma int_lit_fun : forall s n m, int_lit s n -> int_lit s m -> n = m.
Proof. intros s n m A B. apply lit_value_spec in A as [A _]. apply lit_value_spec in B as [B _]. congruence. Qed.
Lemma parseI32_spec : forall s n, int_lit s n -> decimal s -> parseI32 s = fits n.
Proof.
  intros s n H [(c & r & -> & NZ)| ->].
  - destruct (lit_nonzero c r NZ) as [_ Q]. unfold parseI32. rewrite <- Q. now apply lit_value_spec.
  - apply lit_value_spec in H as [H _]. injection H as <-. reflexivity.
Qed.
Lemma fits_small : forall s n v, int_lit s n -> fits n = Some v -> small s /\ v = Z.of_N n.
Proof. intros s n v H. unfold fits. destruct (n <? 2^31) eqn:L; [|discriminate]. intros [= <-]. split; [exists n; split; [exact H|lia]|reflexivity]. Qed.
Lemma small_fits : forall s n, int_lit s n -> small s -> fits n = Some (Z.of_N n).
Proof. intros s n H (m & H' & L). rewrite (int_lit_fun _ _ _ H H'). unfold fits. now replace (m <? 2^31) with true by lia. Qed.

(** ** all *)
Lemma all_cons : forall A B (f : A -> option B) x r, all f (x :: r) =
  match f x with
  | Some y => match all f r with Some ys => Some (y :: ys) | None => None end
  | None => None
  end.
Proof. reflexivity. Qed.
Lemma all_some : forall A B (f : A -> option B) l ys, all f l = Some ys <-> Forall2 (fun x y => f x = Some y) l ys.
Proof.
  intros A B f. induction l as [|x r IH]; intros ys; cbn.
  - split; [intros [= <-]; constructor|inversion 1; reflexivity].
  - split.
    + destruct (f x) as [y|] eqn:Q; [|discriminate]. destruct (all f r) as [zs|] eqn:R; [|discriminate].
      intros [= <-]. constructor; [exact Q|]. now apply IH.
    + inversion 1 as [|? y ? zs Q R]; subst. rewrite Q. apply IH in R. cbn in R. now rewrite R.
Qed.

(** ** Ranges *)
Lemma read_range_ok : forall r, range_literal r -> range_decimal r ->
  (range_ok r <-> exists ab, read_range r = Some ab).
Proof.
  intros [s t] [(n & L1) L2] [D1 D2]. cbn [fst snd] in *. unfold read_range, range_ok. cbn [fst snd].
  rewrite (parseI32_spec _ _ L1 D1). destruct t as [| |u].
  - split.
    + intros [S _]. rewrite (small_fits _ _ L1 S). eauto.
    + intros (ab & Q). destruct (fits n) as [v|] eqn:F; [|discriminate]. split; [|exact Logic.I]. eapply fits_small; eassumption.
  - split.
    + intros [S _]. rewrite (small_fits _ _ L1 S). eauto.
    + intros (ab & Q). destruct (fits n) as [v|] eqn:F; [|discriminate]. split; [|exact Logic.I]. eapply fits_small; eassumption.
  - destruct L2 as (m & L2). rewrite (parseI32_spec _ _ L2 D2). split.
    + intros [S S2]. rewrite (small_fits _ _ L1 S), (small_fits _ _ L2 S2). eauto.
    + intros (ab & Q). destruct (fits n) as [v|] eqn:F; [|discriminate].
      destruct (fits m) as [w|] eqn:G; [|discriminate]. split; eapply fits_small; eassumption.
Qed.
Lemma read_range_covers : forall r a b v, range_literal r -> range_decimal r -> read_range r = Some (a, b) ->
  (v < 2^31)%Z -> (covers r v <-> (a <= v <= b)%Z).
Proof.
  intros [s t] a b v [(n & L1) L2] [D1 D2] R V. cbn [fst snd] in *. unfold read_range in R. cbn [fst snd] in R.
  rewrite (parseI32_spec _ _ L1 D1) in R. destruct (fits n) as [x|] eqn:F; [|discriminate].
  apply (fits_small _ _ _ L1) in F as [_ ->]. unfold covers. cbn [fst snd].
  assert (U : forall a, int_lit s a -> a = n) by (intros a' H; eapply int_lit_fun; eassumption).
  destruct t as [| |u].
  - injection R as <- <-. split; [intros (a' & H & ->); rewrite (U _ H); lia|]. intros. exists n. split; [exact L1|lia].
  - injection R as <- <-. split; [intros (a' & H & Q); rewrite (U _ H) in Q; lia|]. intros. exists n. split; [exact L1|lia].
  - destruct L2 as (m & L2). rewrite (parseI32_spec _ _ L2 D2) in R. destruct (fits m) as [y|] eqn:G; [|discriminate].
    apply (fits_small _ _ _ L2) in G as [_ ->]. injection R as <- <-. split.
    + intros (a' & H & b' & H' & Q). rewrite (U _ H) in Q. rewrite (int_lit_fun _ _ _ H' L2) in Q. exact Q.
    + intros Q. exists n. split; [exact L1|]. exists m. auto.
Qed.
Lemma in_ranges_spec : forall rr v, in_ranges rr v = true <-> exists a b, In (a, b) rr /\ (a <= v <= b)%Z.
Proof.
  induction rr as [|[a b] r IH]; intros v; cbn [in_ranges In].
  - split; [discriminate|intros (a & b & [] & _)].
  - destruct ((a <=? v)%Z && (v <=? b)%Z) eqn:Q.
    + split; [|reflexivity]. intros _. exists a, b. split; [now left|lia].
    + rewrite IH. split; intros (a' & b' & I & L); exists a', b'; [auto|]. destruct I as [[= -> ->]|I]; [lia|auto].
Qed.
Lemma reserved_spec : forall rs rr v, Forall range_literal rs -> Forall range_decimal rs ->
  Forall2 (fun x y => read_range x = Some y) rs rr -> (v < 2^31)%Z ->
  (in_ranges rr v = true <-> exists r, In r rs /\ covers r v).
Proof.
  intros rs rr v L D F V. rewrite in_ranges_spec. induction F as [|r [a b] rs rr Q F IH]; inversion L; inversion D; subst.
  - split; [intros (a & b & [] & _)|intros (r & [] & _)].
  - specialize (IH H2 H6). pose proof (read_range_covers r a b v H1 H5 Q V) as C. split.
    + intros (a' & b' & [[= <- <-]|I] & W).
      * exists r. split; [now left|]. now apply C.
      * destruct (proj1 IH) as (r' & I' & C'); [eauto|]. exists r'. split; [now right|exact C'].
    + intros (r' & [<-|I] & W).
      * exists a, b. split; [now left|]. now apply C.
      * destruct (proj2 IH) as (a' & b' & I' & C'); [eauto|]. exists a', b'. split; [now right|exact C'].
Qed.

(** ** Verification *)
Lemma In_reserved_spec : forall rr v, In_reserved rr v = true <-> implementation_number v \/ in_ranges rr v = true.
Proof.
  intros rr v. unfold In_reserved, implementation_number, protobufReservedMin, protobufReservedMax.
  destruct ((19000 <=? v)%Z && (v <=? 19999)%Z) eqn:Q; [split; [left; lia|reflexivity]|].
  split; [auto|]. intros [H|H]; [lia|exact H].
Qed.
Lemma seen_spec : forall l n, seen l n = true <-> In n l.
Proof.
  intros l n. unfold seen. rewrite existsb_exists. split.
  - intros (x & I & Q). apply Z.eqb_eq in Q. now subst.
  - intro I. exists n. split; [exact I|apply Z.eqb_refl].
Qed.

Lemma verify_values_nil : forall rr alias fs m, verify_values rr alias m fs = [] <->
  (forall n, In n (map snd fs) -> In_reserved rr n = false) /\
  (alias = true \/ (NoDup (map snd fs) /\ forall n, In n (map snd fs) -> ~ In n m)).
Proof.
  intros rr alias. induction fs as [|[name n] r IH]; intros m; cbn [verify_values map snd In].
  - split; [|reflexivity]. intros _. split; [intros n []|]. right. split; [constructor|intros n []].
  - destruct (In_reserved rr n) eqn:R.
    + split; [discriminate|]. intros [H _]. rewrite H in R by auto. discriminate.
    + destruct alias.
      * cbn [negb]. rewrite andb_false_r. cbn [app]. rewrite IH. split.
        -- intros [A _]. split; [|now left]. intros k [<-|K]; auto.
        -- intros [A _]. split; [|now left]. auto.
      * cbn [negb]. rewrite andb_true_r. destruct (seen m n) eqn:S.
        -- split; [discriminate|]. intros [_ [Q|[_ Q]]]; [discriminate|]. apply seen_spec in S. destruct (Q n); auto.
        -- cbn [app]. rewrite IH. assert (NS : ~ In n m) by (rewrite <- seen_spec; congruence). split.
           ++ intros [A [Q|[ND D]]]; [discriminate|]. split; [intros k [<-|K]; auto|]. right. split.
              ** constructor; [|exact ND]. intro K. apply (D n K). now left.
              ** intros k [<-|K]; [exact NS|]. intro J. apply (D k K). now right.
           ++ intros [A [Q|[ND D]]]; [discriminate|]. split; [auto|]. right. inversion ND as [|? ? NI ND']; subst.
              split; [exact ND'|]. intros k K [<-|J]; [now apply NI|]. now apply (D k (or_intror K)).
Qed.
Lemma verify_fields_values : forall rr fs m, verify_fields rr m fs = verify_values rr false m fs.
Proof.
  intros rr. induction fs as [|[name n] r IH]; intros m; cbn [verify_fields verify_values negb]; [reflexivity|].
  rewrite IH, andb_true_r. reflexivity.
Qed.
Lemma verify_fields_errors : forall rr fs m,
  (forall name n, In (Reserved name n) (verify_fields rr m fs) <-> In (name, n) fs /\ In_reserved rr n = true) /\
  (forall name n, In (Duplicated name n) (verify_fields rr m fs) <->
     In_reserved rr n = false /\
     exists a b, fs = a ++ (name, n) :: b /\ (In n m \/ In n (map snd a))).
Proof.
  intros rr. induction fs as [|[x k] r IH]; intros m; cbn [verify_fields].
  - split; [cbn; tauto|]. intros name n. split; [intros []|]. intros (_ & a & b & Q & _). destruct a; discriminate.
  - destruct (IH (k :: m)) as [A B]. split; intros name n; rewrite in_app_iff.
    + rewrite A. destruct (In_reserved rr k) eqn:R; [|destruct (seen m k)]; cbn [In].
      * split; [intros [[[= <- <-]|[]]|[I Q]]; auto|]. intros [[[= <- <-]|I] Q]; auto.
      * split; [intros [[Q|[]]|[I Q]]; [discriminate|auto]|]. intros [[[= <- <-]|I] Q]; [congruence|auto].
      * split; [intros [[]|[I Q]]; auto|]. intros [[[= <- <-]|I] Q]; [congruence|auto].
    + rewrite B. split.
      * intros [I|(NR & a & b & -> & D)].
        -- destruct (In_reserved rr k) eqn:R; [destruct I as [I|[]]; discriminate|].
           destruct (seen m k) eqn:S; [|destruct I]. destruct I as [[= <- <-]|[]]. split; [exact R|].
           exists [], r. split; [reflexivity|]. left. now apply seen_spec.
        -- split; [exact NR|]. exists ((x, k) :: a), b. split; [reflexivity|]. cbn [map snd In].
           destruct D as [[<-|D]|D]; auto.
      * intros (NR & [|[x' k'] a] & b & Q & D).
        -- injection Q as -> -> ->. left. rewrite NR. destruct D as [D|[]]. apply seen_spec in D. rewrite D. now left.
        -- injection Q as -> -> ->. right. split; [exact NR|]. exists a, b. split; [reflexivity|].
           cbn [map snd In] in *. tauto.
Qed.

(** ** Fields *)
Lemma read_fields_values : forall fs fs', Forall (fun f => exists n, int_lit (snd f) n) fs ->
  Forall2 (fun x y => read_field x = Some y) fs fs' ->
  Forall2 (fun f v => value_of false (snd f) v /\ (v < 2^31)%Z) fs (map snd fs').
Proof.
  intros fs fs' G F. induction F as [|[x s] y fs fs' Q F IH]; inversion G as [|? ? (n & L) G']; subst; [constructor|].
  cbn [map]. constructor; [|now apply IH]. cbn [snd] in *. unfold read_field in Q. cbn [fst snd] in Q.
  destruct (lit_value_spec _ _ L) as [_ U]. rewrite U in Q. unfold fits in Q.
  destruct (n <? 2^31) eqn:E; [|discriminate]. injection Q as <-. cbn [snd]. split; [exists n; auto|lia].
Qed.
Lemma values_read_fields : forall fs vs,
  Forall2 (fun f v => value_of false (snd f) v /\ (v < 2^31)%Z) fs vs ->
  exists fs', Forall2 (fun x y => read_field x = Some y) fs fs' /\ map snd fs' = vs.
Proof.
  intros fs vs F. induction F as [|[x s] v fs vs ((n & L & V) & B) F (fs' & F' & <-)]; [exists []; split; [constructor|reflexivity]|].
  cbn [snd] in *. exists ((x, v) :: fs'). split; [|reflexivity]. constructor; [|exact F'].
  unfold read_field. cbn [fst snd]. destruct (lit_value_spec _ _ L) as [_ ->]. unfold fits.
  replace (n <? 2^31) with true by lia. now rewrite V.
Qed.
Lemma ranges_read : forall rs, Forall range_literal rs -> Forall range_decimal rs -> Forall range_ok rs ->
  exists rr, Forall2 (fun x y => read_range x = Some y) rs rr.
Proof.
  induction rs as [|r rs IH]; intros L D O; [exists []; constructor|]. inversion L; inversion D; inversion O; subst.
  destruct IH as (rr & F); try assumption. destruct (proj1 (read_range_ok r H1 H5)) as (ab & Q); [assumption|].
  exists (ab :: rr). constructor; assumption.
Qed.
Lemma read_ranges_ok : forall rs rr, Forall range_literal rs -> Forall range_decimal rs ->
  Forall2 (fun x y => read_range x = Some y) rs rr -> Forall range_ok rs.
Proof.
  intros rs rr L D F. induction F as [|r ab rs rr Q F IH]; [constructor|]. inversion L; inversion D; subst.
  constructor; [|now apply IH]. apply read_range_ok; eauto.
Qed.

Lemma fields_ok_spec : forall fs rs, fields_grammar fs -> Forall range_literal rs -> Forall range_decimal rs ->
  (fields_ok fs rs <-> exists fs' rr, all read_field fs = Some fs' /\ all read_range rs = Some rr /\ verify_fields rr [] fs' = []).
Proof.
  intros fs rs G L D. split.
  - intros (RO & vs & V & ND & NR). destruct (ranges_read rs L D RO) as (rr & R).
    destruct (values_read_fields _ _ V) as (fs' & F & <-). exists fs', rr.
    split; [now apply all_some|]. split; [now apply all_some|]. rewrite verify_fields_values. apply verify_values_nil.
    split; [|right; split; [exact ND|auto]]. intros n I. destruct (In_reserved rr n) eqn:Q; [|reflexivity].
    apply In_reserved_spec in Q. destruct (NR n I) as [N1 N2]. exfalso. destruct Q as [Q|Q]; [auto|].
    apply (reserved_spec rs rr n L D R) in Q as (r & I' & C); [exact (N2 r I' C)|].
    clear - V I. induction V as [|f v fs vs [_ B] V IH]; [destruct I|]. destruct I as [<-|I]; auto.
  - intros (fs' & rr & F & R & Q). apply all_some in F, R. rewrite verify_fields_values in Q.
    apply verify_values_nil in Q as [A [X|[ND _]]]; [discriminate|]. split; [eapply read_ranges_ok; eassumption|].
    exists (map snd fs'). pose proof (read_fields_values _ _ G F) as V. split; [exact V|]. split; [exact ND|].
    intros v I. specialize (A v I). split.
    + intro H. assert (X : In_reserved rr v = true) by (apply In_reserved_spec; now left). congruence.
    + intros r Ir C. assert (X : In_reserved rr v = true); [|congruence]. apply In_reserved_spec. right.
      apply (reserved_spec rs rr v L D R); [|eauto].
      clear - V I. remember (map snd fs') as vs. clear Heqvs. induction V as [|f w fs vs [_ B] V IH]; [destruct I|]. destruct I as [<-|I]; auto.
Qed.

(** ** Enums *)

Lemma allow_alias_spec : forall fs rr oo, NoDup (map fst oo) ->
  (allowAlias (mkE fs rr oo) = true <-> given oo (bs "allow_alias") (bs "true")).
Proof.
  intros fs rr oo ND. unfold allowAlias, given. cbn [e_options]. rewrite <- (opt_get_given _ _ _ ND).
  destruct (opt_get oo (bs "allow_alias")) as [v|]; [|intuition discriminate].
  unfold istrue. destruct (str_eqb_spec v (bs "true")); intuition congruence.
Qed.
Lemma enum_ok_spec : forall e, enum_grammar e -> enum_plain e -> (enum_ok e <-> enum_accepted e = true).
Proof.
  intros e (G & L & NO) (D & PL). unfold enum_accepted, read_enum. split.
  - intros (RO & vs & V & ND & NR). destruct (ranges_read _ L D RO) as (rr & R).
    assert (X : exists fs', Forall2 (fun x y => read_enum_field x = Some y) (se_fields e) fs' /\ map snd fs' = vs).
    { assert (PL' := PL). clear -V PL'. induction V as [|[[x neg] s] v fs vs ((n & LI & VV) & B) V IH].
      - exists []. split; [constructor|reflexivity].
      - destruct IH as (fs' & F' & <-). { intros f w I. apply PL'. now right. }
        exists ((x, v) :: fs'). split; [|reflexivity]. constructor; [|exact F'].
        cbn [fst snd] in *. unfold read_enum_field. cbn [fst snd]. destruct (lit_value_spec _ _ LI) as [_ ->].
        destruct (PL' (x, neg, s) v (or_introl eq_refl)) as [_ NM]; [exists n; auto|].
        unfold fits. replace (n <? 2^31) with true by (destruct neg; lia). rewrite VV. reflexivity. }
    destruct X as (fs' & F & <-).
    rewrite (proj2 (all_some _ _ _ _ _) F), (proj2 (all_some _ _ _ _ _) R).
    replace (enum_verify _) with (@nil verr); [reflexivity|]. symmetry. unfold enum_verify. cbn [e_reserved e_fields].
    apply verify_values_nil. rewrite allow_alias_spec by assumption. split.
    + intros n I. destruct (In_reserved rr n) eqn:Q; [|reflexivity]. exfalso.
      assert (BN : (exists f, In f (se_fields e) /\ value_of (snd (fst f)) (snd f) n) /\ (n < 2^31)%Z).
      { clear - V I. remember (map snd fs') as vs. clear Heqvs. induction V as [|f w fs vs [B1 B2] V IH]; [destruct I|].
        destruct I as [<-|I]; [split; [exists f; split; [now left|exact B1]|lia]|].
        destruct (IH I) as [(g & Ig & W) Z]. split; [exists g; split; [now right|exact W]|exact Z]. }
      destruct BN as [(f & If & W) B].
      apply In_reserved_spec in Q as [Q|Q]; [exact (proj1 (PL f n If W) Q)|].
      apply (reserved_spec _ rr n L D R B) in Q as (r & I' & C). exact (NR n I r I' C).
    + destruct ND as [ND|ND]; [right; split; [exact ND|auto]|now left].
  - destruct (all read_enum_field (se_fields e)) as [fs'|] eqn:F; [|discriminate].
    destruct (all read_range (se_reserved e)) as [rr|] eqn:R; [|discriminate].
    destruct (enum_verify _) eqn:Q; [|discriminate]. intros _. apply all_some in F, R.
    unfold enum_verify in Q. cbn [e_reserved e_fields] in Q. apply verify_values_nil in Q as [A B].
    rewrite allow_alias_spec in B by assumption. split; [eapply read_ranges_ok; eassumption|].
    exists (map snd fs').
    assert (V : Forall2 (fun f v => value_of (snd (fst f)) (snd f) v /\ (- 2^31 <= v < 2^31)%Z) (se_fields e) (map snd fs')).
    { clear -F G. induction F as [|[[x neg] s] y fs fs' Q F IH]; inversion G as [|? ? (n & LI) G']; subst; [constructor|].
      cbn [map]. constructor; [|now apply IH]. cbn [fst snd] in *. unfold read_enum_field in Q. cbn [fst snd] in Q.
      destruct (lit_value_spec _ _ LI) as [_ U]. rewrite U in Q. unfold fits in Q.
      destruct (n <? 2^31) eqn:E; [|discriminate]. injection Q as <-. cbn [snd]. unfold negate.
      split; [exists n; split; [exact LI|destruct neg; reflexivity]|destruct neg; lia]. }
    split; [exact V|]. split; [tauto|].
    intros v I r Ir C. specialize (A v I). assert (X : In_reserved rr v = true); [|congruence].
    apply In_reserved_spec. right. apply (reserved_spec _ rr v L D R); [|eauto].
    clear - V I. remember (map snd fs') as vs. clear Heqvs. induction V as [|f w fs vs [_ B] V IH]; [destruct I|]. destruct I as [<-|I]; [lia|auto].
Qed.

(** ** Messages *)

Section SrcInd.
Variable P : src_msg -> Prop.
Hypothesis H : forall fs rs es ms, Forall P ms -> P (SM fs rs es ms).
Fixpoint src_msg_all (m : src_msg) : P m :=
  match m with
  | SM fs rs es ms => H fs rs es ms ((fix go l : Forall P l := match l with [] => Forall_nil P | x :: r => Forall_cons x (src_msg_all x) (go r) end) ms)
  end.
End SrcInd.

Lemma accepted_all : forall fs rs es ms, accepted (SM fs rs es ms) = true <->
  (exists fs' rr, all read_field fs = Some fs' /\ all read_range rs = Some rr /\ verify_fields rr [] fs' = []) /\
  Forall (fun e => enum_accepted e = true) es /\ Forall (fun m => accepted m = true) ms.
Proof.
  intros fs rs es ms. unfold accepted at 1. cbn [read_msg].
  assert (HE : Forall (fun e => enum_accepted e = true) es <->
    exists es', all read_enum es = Some es' /\ concat (map enum_verify es') = []).
  { induction es as [|e es IH].
    - split; [intros _; exists []; split; reflexivity|constructor].
    - split.
      + intro F. inversion F as [|? ? A F']; subst. apply IH in F' as (es' & Q & V). unfold enum_accepted in A.
        destruct (read_enum e) as [e'|] eqn:R; [|discriminate]. destruct (enum_verify e') eqn:W; [|discriminate].
        exists (e' :: es'). rewrite all_cons, R, Q. split; [reflexivity|]. cbn [map concat]. rewrite W. exact V.
      + intros (es' & Q & V). rewrite all_cons in Q. destruct (read_enum e) as [e'|] eqn:R; [|discriminate].
        destruct (all read_enum es) as [es''|] eqn:Q'; [|discriminate]. injection Q as <-.
        cbn [map concat] in V. apply app_eq_nil in V as [V1 V2]. constructor.
        * unfold enum_accepted. rewrite R, V1. reflexivity.
        * apply IH. exists es''. split; [reflexivity|exact V2]. }
  assert (HM : Forall (fun m => accepted m = true) ms <->
    exists ms', all read_msg ms = Some ms' /\ concat (map msg_verify ms') = []).
  { clear. induction ms as [|m ms IH].
    - split; [intros _; exists []; split; reflexivity|constructor].
    - split.
      + intro F. inversion F as [|? ? A F']; subst. apply IH in F' as (ms' & Q & V). unfold accepted in A.
        destruct (read_msg m) as [m'|] eqn:R; [|discriminate]. destruct (msg_verify m') eqn:W; [|discriminate].
        exists (m' :: ms'). rewrite all_cons, R, Q. split; [reflexivity|]. cbn [map concat]. rewrite W. exact V.
      + intros (ms' & Q & V). rewrite all_cons in Q. destruct (read_msg m) as [m'|] eqn:R; [|discriminate].
        destruct (all read_msg ms) as [ms''|] eqn:Q'; [|discriminate]. injection Q as <-.
        cbn [map concat] in V. apply app_eq_nil in V as [V1 V2]. constructor.
        * unfold accepted. rewrite R, V1. reflexivity.
        * apply IH. exists ms''. split; [reflexivity|exact V2]. }
  rewrite HE, HM. clear HE HM. split.
  - destruct (all read_field fs) as [fs'|]; [|discriminate]. destruct (all read_range rs) as [rr|]; [|discriminate].
    destruct (all read_enum es) as [es'|]; [|discriminate]. destruct (all read_msg ms) as [ms'|]; [|discriminate].
    destruct (msg_verify _) eqn:Q; [|discriminate]. intros _. cbn [msg_verify] in Q.
    apply app_eq_nil in Q as [Q1 Q]. apply app_eq_nil in Q as [Q2 Q3].
    split; [eauto|]. split; eauto.
  - intros ((fs' & rr & A & B & V) & (es' & C & V1) & (ms' & D & V2)). rewrite A, B, C, D. cbn [msg_verify].
    rewrite V1, V2, V. reflexivity.
Qed.

Lemma message_ok_spec : forall m, grammatical m -> msg_plain m -> (message_ok m <-> accepted m = true).
Proof.
  induction m as [fs rs es ms IH] using src_msg_all. intros G P.
  inversion G as [? ? ? ? G1 G2 G3 G4]; inversion P as [? ? ? ? P1 P2 P3 P4]; subst.
  rewrite accepted_all. rewrite <- (fields_ok_spec fs rs) by assumption.
  assert (HE : Forall enum_ok es <-> Forall (fun e => enum_accepted e = true) es).
  { clear -G3 P3. induction es as [|e es IH]; [split; constructor|].
    inversion G3 as [|? ? A1 A2]; inversion P3 as [|? ? B1 B2]; subst. pose proof (enum_ok_spec e A1 B1) as X. specialize (IH A2 B2).
    split; intro F; inversion F; subst; constructor; try (apply X; assumption); apply IH; assumption. }
  assert (HM : Forall message_ok ms <-> Forall (fun e => accepted e = true) ms).
  { clear -G4 P4 IH. induction ms as [|e es IH']; [split; constructor|].
    inversion G4 as [|? ? A1 A2]; inversion P4 as [|? ? B1 B2]; inversion IH as [|? ? C1 C2]; subst.
    pose proof (C1 A1 B1) as X. specialize (IH' C2 A2 B2).
    split; intro F; inversion F; subst; constructor; try (apply X; assumption); apply IH'; assumption. }
  rewrite <- HE, <- HM. split; [inversion 1; auto|intros (A & B & C); now constructor].
Qed.
