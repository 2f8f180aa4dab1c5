(** The blocks of the decoder's allocator are aligned, inside their object and disjoint. *)
From Verif Require Import Base Span.
From Coq Require Import Lia.
From Coq Require Import ZifyBool ZifyNat ZifyN.
Open Scope N_scope.

Lemma Forall2_imp : forall A B (P Q : A -> B -> Prop) l1 l2, (forall a b, P a b -> Q a b) -> Forall2 P l1 l2 -> Forall2 Q l1 l2.
Proof. induction 2; constructor; auto. Qed.

(** ** Specification *)

(** The size of an object. *)
Definition osize (o : objs) (k : nat) : option N := nth_error (rev o) k.

Definition inside (o : objs) (b : block) : Prop :=
  exists sz, osize o (b_obj b) = Some sz /\ b_off b + b_len b <= sz.

(** The byte [i] of object [k] belongs to the block. *)
Definition covers (b : block) (k : nat) (i : N) : Prop :=
  b_obj b = k /\ b_off b <= i < b_off b + b_len b.
Definition disjoint (b1 b2 : block) : Prop := forall k i, ~ (covers b1 k i /\ covers b2 k i).

Definition pow2 (a : N) : Prop := exists k, k < 64 /\ a = 2 ^ k.
(** The objects lie below 2^64. *)
Definition heap_ok (addr : heap) (o : objs) : Prop :=
  forall k sz, osize o k = Some sz -> addr k sz + sz < 2 ^ 64.
Definition request_ok (r : request) : Prop := pow2 (r_align r).

(** The address of a block. *)
Definition address (addr : heap) (o : objs) (b : block) : N :=
  match osize o (b_obj b) with Some sz => addr (b_obj b) sz + b_off b | None => 0 end.

(** ** Alignment *)

Lemma align_up : forall ret k, k < 64 -> ret + (2^k - 1) < 2^64 ->
  N.land (ret + (2^k - 1)) (not64 (2^k - 1)) = 2^k * ((ret + (2^k - 1)) / 2^k).
Proof.
  intros ret k K B. set (a := ret + (2^k - 1)) in *. unfold not64.
  assert (E1 : 2^k - 1 = N.ones k) by (rewrite N.ones_equiv; lia).
  rewrite E1.
  assert (E2 : N.land a (N.ldiff (N.ones 64) (N.ones k)) = N.ldiff a (N.ones k)).
  { apply N.bits_inj. intro i. rewrite N.land_spec, !N.ldiff_spec.
    destruct (N.lt_ge_cases i 64) as [L|L].
    - rewrite N.ones_spec_low by exact L. reflexivity.
    - rewrite (N.ones_spec_high 64 i) by exact L. cbn [andb].
      destruct (N.eq_dec a 0) as [->|NZ]; [now rewrite N.bits_0|].
      rewrite (N.bits_above_log2 a i); [reflexivity|].
      eapply N.lt_le_trans; [|exact L]. apply N.log2_lt_pow2; lia. }
  rewrite E2, N.ldiff_ones_r, N.shiftl_mul_pow2, N.shiftr_div_pow2. apply N.mul_comm.
Qed.
Lemma align_off_spec : forall ret al, pow2 al -> ret + (al - 1) < 2^64 ->
  align_off ret (al - 1) <= al - 1 /\ (ret + align_off ret (al - 1)) mod al = 0.
Proof.
  intros ret al (k & K & ->) B. unfold align_off. rewrite align_up by assumption.
  assert (P : 0 < 2^k) by (apply N.neq_0_lt_0, N.pow_nonzero; lia).
  set (m := 2^k) in *. set (a := ret + (m - 1)) in *.
  pose proof (N.div_mod a m ltac:(lia)) as D. pose proof (N.mod_lt a m ltac:(lia)) as L.
  set (q := a / m) in *. set (r := a mod m) in *.
  assert (G : ret <= m * q) by lia.
  replace (ret + (m * q - ret)) with (q * m) by lia.
  split; [lia|]. apply N.mod_mul. lia.
Qed.

(** ** One allocation *)

Lemma osize_cons : forall o sz, osize (sz :: o) (length o) = Some sz.
Proof. intros. unfold osize. cbn [rev]. rewrite nth_error_app2; rewrite rev_length; [|lia]. now rewrite Nat.sub_diag. Qed.
Lemma osize_old : forall o sz k x, osize o k = Some x -> osize (sz :: o) k = Some x.
Proof.
  intros o sz k x H. unfold osize in *. cbn [rev]. rewrite nth_error_app1; [exact H|].
  apply nth_error_Some. congruence.
Qed.
Lemma osize_lt : forall o k x, osize o k = Some x -> (k < length o)%nat.
Proof. intros o k x H. rewrite <- rev_length. apply nth_error_Some. unfold osize in H. congruence. Qed.

(** Objects are only added. *)
Definition grows (o o' : objs) : Prop := exists l, o' = l ++ o.
Lemma grows_osize : forall o o' k x, grows o o' -> osize o k = Some x -> osize o' k = Some x.
Proof. intros o o' k x (l & ->) H. induction l as [|a l IH]; [exact H|]. now apply (osize_old (l ++ o)). Qed.
Lemma grows_refl : forall o, grows o o. Proof. intro. now exists []. Qed.
Lemma grows_trans : forall a b c, grows a b -> grows b c -> grows a c.
Proof. intros a b c (l & ->) (l' & ->). exists (l' ++ l). now rewrite app_assoc. Qed.
Lemma grows_cons : forall o x, grows o (x :: o). Proof. intros. now exists [x]. Qed.
Lemma grows_len : forall o o', grows o o' -> (length o <= length o')%nat.
Proof. intros o o' (l & ->). rewrite app_length. lia. Qed.

Section Run.
Variable addr : heap.

Lemma heap_grows : forall o o', grows o o' -> heap_ok addr o' -> heap_ok addr o.
Proof. intros o o' G H k sz Z. apply H. eapply grows_osize; eassumption. Qed.

Definition span_ok (o : objs) (s : span) : Prop := osize o (s_b s) = Some (s_n s) /\ s_p s <= s_n s.
Definition aligned (o : objs) (al : N) (b : block) : Prop := address addr o b mod al = 0.

Lemma place : forall s o n al, heap_ok addr o -> osize o (s_b s) = Some (s_n s) -> s_p s + n + (al - 1) <= s_n s -> pow2 al ->
  let off := align_off (addr (s_b s) (s_n s) + s_p s) (al - 1) in
  span_ok o (mkSpan (s_p s + (n + off)) (s_b s) (s_n s)) /\
  inside o (mkBlock (s_b s) (s_p s + off) n) /\ aligned o al (mkBlock (s_b s) (s_p s + off) n).
Proof.
  intros s o n al HO H1 H2 A off. pose proof (HO (s_b s) (s_n s) H1) as HB.
  destruct (align_off_spec (addr (s_b s) (s_n s) + s_p s) al A) as [O1 O2]; [lia|]. fold off in O1, O2.
  split; [split; cbn; [exact H1|lia]|]. split.
  - exists (s_n s). cbn. split; [exact H1|lia].
  - unfold aligned, address. cbn [b_obj b_off]. rewrite H1. rewrite <- O2. f_equal. lia.
Qed.

(** What one call of span.Malloc achieves. *)
Lemma span_Malloc_spec : forall s o n al b s' o', heap_ok addr o' -> span_ok o s -> pow2 al ->
  span_Malloc addr s o n al = (b, s', o') ->
  grows o o' /\ span_ok o' s' /\ inside o' b /\ aligned o' al b /\ b_obj b = s_b s' /\ b_len b = n /\
  b_off b + b_len b <= s_p s' /\
  ((s_b s' = s_b s /\ s_p s <= b_off b) \/ (length o <= s_b s')%nat).
Proof.
  intros s o n al b s' o' HO (S1 & S2) A H. unfold span_Malloc in H.
  destruct (N.ltb_spec (s_n s) (s_p s + n + (al - 1))) as [L|L].
  - set (sz := if defaultDecoderSpanSize <? n + (al - 1) then n + (al - 1) else defaultDecoderSpanSize) in *.
    assert (SZ : n + (al - 1) <= sz) by (subst sz; destruct (N.ltb_spec defaultDecoderSpanSize (n + (al - 1))); lia).
    pose proof (osize_cons o sz) as OS.
    destruct (place (mkSpan 0 (length o) sz) (sz :: o) n al) as (P1 & P2 & P3); cbn [s_p s_b s_n]; [injection H as _ _ <-; exact HO|exact OS|lia|exact A|].
    cbn [s_p s_b s_n] in *. injection H as <- <- <-. cbn [b_obj b_len b_off s_p s_b] in *.
    repeat (split; [first [apply grows_cons|assumption|reflexivity|lia]|]). right. lia.
  - destruct (place s o n al ltac:(injection H as _ _ <-; exact HO) S1 L A) as (P1 & P2 & P3). injection H as <- <- <-. cbn [b_obj b_len b_off s_p s_b] in *.
    repeat (split; [first [apply grows_refl|assumption|reflexivity|lia]|]). left. split; [reflexivity|lia].
Qed.

Lemma Decoder_Malloc_spec : forall s o n al abi b s' o', heap_ok addr o' -> span_ok o s -> pow2 al ->
  Decoder_Malloc addr s o n al abi = (b, s', o') ->
  grows o o' /\ span_ok o' s' /\ inside o' b /\ b_len b = n /\
  ((b_obj b = s_b s' /\ aligned o' al b /\ b_off b + b_len b <= s_p s' /\
    ((s_b s' = s_b s /\ s_p s <= b_off b) \/ (length o <= s_b s')%nat)) \/
   (s' = s /\ b_obj b = length o /\ b_off b = 0)).
Proof.
  intros s o n al abi b s' o' HO S A H. unfold Decoder_Malloc in H. destruct ((_ <? n) || abi).
  - injection H as <- <- <-. split; [apply grows_cons|]. destruct S as [S1 S2].
    split; [split; [now apply osize_old|exact S2]|]. split; [|split; [reflexivity|right; auto]].
    exists n. cbn. split; [apply osize_cons|lia].
  - apply span_Malloc_spec in H; [|assumption..]. destruct H as (H1 & H2 & H3 & H4 & H5 & H6 & H7 & H8).
    repeat (split; [assumption|]). left. auto.
Qed.

(** ** Any history *)

(** Blocks [bs] were handed out before; the decoders never return to them. *)
Definition inv (ds : decoders) (o : objs) (bs : list block) : Prop :=
  (forall d s, ds d = Some s -> span_ok o s) /\
  (forall d1 d2 s1 s2, ds d1 = Some s1 -> ds d2 = Some s2 -> s_b s1 = s_b s2 -> d1 = d2) /\
  (forall b, In b bs -> inside o b) /\
  (forall b d s, In b bs -> ds d = Some s -> b_obj b = s_b s -> b_off b + b_len b <= s_p s).

Lemma inside_grows : forall o o' b, grows o o' -> inside o b -> inside o' b.
Proof. intros o o' b G (sz & H & L). exists sz. split; [eapply grows_osize; eassumption|exact L]. Qed.
Lemma inside_lt : forall o b, inside o b -> (b_obj b < length o)%nat.
Proof. intros o b (sz & H & _). eapply osize_lt, H. Qed.

Lemma init_inv : forall ds o bs d, inv ds o bs -> ds d = None ->
  inv (fun d' => if Nat.eqb d' d then Some (fst (span_init o)) else ds d') (snd (span_init o)) bs.
Proof.
  intros ds o bs d (I1 & I2 & I3 & I4) ND. unfold span_init. cbn [fst snd].
  assert (OLD : forall d' s, ds d' = Some s -> (s_b s < length o)%nat).
  { intros d' s H. apply I1 in H as [H _]. eapply osize_lt, H. }
  repeat split.
  - destruct (Nat.eqb d0 d); [injection H as <-; cbn; apply osize_cons|]. apply I1 in H. apply osize_old, H.
  - destruct (Nat.eqb d0 d); [injection H as <-; cbn; lia|]. apply I1 in H. apply H.
  - intros d1 d2 s1 s2 H1 H2 EQ. destruct (Nat.eqb_spec d1 d) as [->|N1], (Nat.eqb_spec d2 d) as [->|N2].
    + reflexivity.
    + injection H1 as <-. cbn in EQ. apply OLD in H2. lia.
    + injection H2 as <-. cbn in EQ. apply OLD in H1. lia.
    + now apply (I2 d1 d2 s1 s2).
  - intros b H. eapply inside_grows; [apply grows_cons|]. now apply I3.
  - intros b d' s H H' EQ. destruct (Nat.eqb d' d).
    + injection H' as <-. cbn in EQ. apply I3 in H. apply inside_lt in H. lia.
    + now apply (I4 b d' s).
Qed.

Lemma serve_spec : forall ds o bs r b ds' o', heap_ok addr o' -> inv ds o bs -> request_ok r -> serve addr ds o r = (b, ds', o') ->
  grows o o' /\ inv ds' o' (b :: bs) /\ inside o' b /\ b_len b = r_n r /\
  (b_off b = 0 /\ (length o <= b_obj b)%nat \/ aligned o' (r_align r) b) /\
  (r_n r <= 1024 -> r_abi r = false -> aligned o' (r_align r) b) /\
  (forall b', In b' bs -> disjoint b b').
Proof.
  intros ds o bs [d n al abi] b ds' o' HO I A H. unfold serve in H. cbn [r_dec r_n r_align r_abi] in *.
  unfold request_ok in A. cbn [r_align] in A.
  assert (X : forall o1 ds1 s, inv ds1 o1 bs -> ds1 d = Some s -> (forall d', d' <> d -> ds1 d' = ds d') -> grows o o1 ->
    (let '(b, s, o) := Decoder_Malloc addr s o1 n al abi in (b, fun d' => if Nat.eqb d' d then Some s else ds d', o)) = (b, ds', o') ->
    grows o o' /\ inv ds' o' (b :: bs) /\ inside o' b /\ b_len b = n /\
    (b_off b = 0 /\ (length o <= b_obj b)%nat \/ aligned o' al b) /\
    (n <= 1024 -> abi = false -> aligned o' al b) /\ (forall b', In b' bs -> disjoint b b')).
  { clear H I. intros o1 ds1 s (I1 & I2 & I3 & I4) HD OTHER G0 H.
    destruct (Decoder_Malloc addr s o1 n al abi) as [[b1 s1] o2] eqn:M. injection H as <- <- <-.
    pose proof M as M0.
    apply Decoder_Malloc_spec in M; [|exact HO|eapply I1, HD|exact A]. destruct M as (G & S1 & IN & LEN & CASE).
    pose proof (grows_len _ _ G0) as GL0.
    assert (OLD : forall d' s', ds1 d' = Some s' -> (s_b s' < length o1)%nat).
    { intros d' s' H'. apply I1 in H' as [H' _]. eapply osize_lt, H'. }
    assert (NEWOBJ : s_b s1 = s_b s \/ (length o1 <= s_b s1)%nat).
    { destruct CASE as [(_ & _ & _ & [[-> _]|?])|(-> & _)]; auto. }
    split; [eapply grows_trans; eassumption|]. split; [|split; [exact IN|split; [exact LEN|split; [|split]]]].
    - split; [|split; [|split]].
      + intros d' s' H'. destruct (Nat.eqb_spec d' d); [injection H' as <-; exact S1|].
        rewrite <- OTHER in H' by assumption. apply I1 in H' as [Q1 Q2]. split; [eapply grows_osize; eassumption|exact Q2].
      + assert (Y : forall d2 s2, d2 <> d -> ds d2 = Some s2 -> s_b s1 = s_b s2 -> False).
        { intros d2 s2 N2 H2 EQ. rewrite <- OTHER in H2 by assumption. destruct NEWOBJ as [E0|E0].
          - apply N2. symmetry. apply (I2 d d2 s s2 HD H2). congruence.
          - apply OLD in H2. lia. }
        intros d1 d2 s1' s2 H1 H2 EQ. destruct (Nat.eqb_spec d1 d) as [->|N1], (Nat.eqb_spec d2 d) as [->|N2].
        * reflexivity.
        * injection H1 as <-. destruct (Y d2 s2 N2 H2 EQ).
        * injection H2 as <-. destruct (Y d1 s1' N1 H1 (eq_sym EQ)).
        * rewrite <- OTHER in H1, H2 by assumption. now apply (I2 d1 d2 s1' s2).
      + intros b' [<-|HB]; [exact IN|]. eapply inside_grows; [exact G|]. now apply I3.
      + intros b' d' s' [<-|HB] HS EQ.
        * destruct (Nat.eqb_spec d' d) as [->|ND].
          -- injection HS as <-. destruct CASE as [(_ & _ & L & _)|(-> & Q & _)]; [exact L|].
             rewrite Q in EQ. apply OLD in HD. lia.
          -- rewrite <- OTHER in HS by assumption. destruct CASE as [(EO & _)|(_ & EO & _)].
             ++ destruct NEWOBJ as [E0|E0]; [|apply OLD in HS; lia].
                exfalso. apply ND. apply (I2 d' d s' s HS HD). congruence.
             ++ apply OLD in HS. lia.
        * destruct (Nat.eqb_spec d' d) as [->|ND].
          -- injection HS as <-. pose proof (inside_lt _ _ (I3 _ HB)) as LT.
             destruct CASE as [(EO & _ & L & [[E0 L0]|E0])|(-> & Q & _)]; [|lia|now apply (I4 b' d s)].
             pose proof (I4 b' d s HB HD ltac:(congruence)). lia.
          -- rewrite <- OTHER in HS by assumption. now apply (I4 b' d' s').
    - destruct CASE as [(_ & AL & _)|(_ & EO & Z0)]; [right; exact AL|left; split; [exact Z0|lia]].
    - intros LE ->. unfold Decoder_Malloc in M0. replace (defaultDecoderSpanSize / 4 <? n) with false in M0 by (symmetry; apply N.ltb_ge; exact LE).
      cbn [orb] in M0. apply span_Malloc_spec in M0; [|exact HO|eapply I1, HD|exact A]. apply M0.
    - intros b' HB k i [[C1 C2] [C3 C4]]. pose proof (inside_lt _ _ (I3 _ HB)) as LT.
      destruct CASE as [(EO & _ & L & [[E0 L0]|E0])|(_ & Q & _)]; [|lia|lia].
      pose proof (I4 b' d s HB HD ltac:(congruence)). lia. }
  destruct (ds d) as [s|] eqn:DS.
  - apply (X o ds s I DS ltac:(auto) (grows_refl _) H).
  - pose proof (init_inv ds o bs d I DS) as I'. destruct (span_init o) as [s o1] eqn:SI. cbn [fst snd] in I'.
    apply (X o1 _ s I').
    + now rewrite Nat.eqb_refl.
    + intros d' ND. apply Nat.eqb_neq in ND. now rewrite ND.
    + unfold span_init in SI. injection SI as _ <-. apply grows_cons.
    + exact H.
Qed.

Lemma address_grows : forall o o' b, grows o o' -> inside o b -> address addr o' b = address addr o b.
Proof. intros o o' b G (sz & H & _). unfold address. rewrite H. now rewrite (grows_osize _ _ _ _ G H). Qed.

Definition pairwise {A} (R : A -> A -> Prop) (l : list A) : Prop :=
  forall i j a b, nth_error l i = Some a -> nth_error l j = Some b -> i <> j -> R a b.

Lemma disjoint_sym : forall a b, disjoint a b -> disjoint b a.
Proof. intros a b H k i [C1 C2]. apply (H k i). auto. Qed.

Lemma serve_all_grows : forall l ds o out o', serve_all addr ds o l = (out, o') -> grows o o'.
Proof.
  induction l as [|r l IH]; intros ds o out o' H; cbn [serve_all] in H.
  - injection H as _ <-. apply grows_refl.
  - destruct (serve addr ds o r) as [[b ds1] o1] eqn:S. destruct (serve_all addr ds1 o1 l) as [out1 o2] eqn:SA. injection H as _ <-.
    eapply grows_trans; [|eapply IH, SA]. unfold serve, span_init, Decoder_Malloc, span_Malloc in S.
    destruct (ds (r_dec r)) as [s|]; destruct (_ || _) in S; try destruct (_ <? _) in S; injection S as _ _ <-;
      first [apply grows_refl|apply grows_cons|eexists [_; _]; reflexivity].
Qed.

Lemma serve_all_spec : forall l ds o bs out o', heap_ok addr o' -> inv ds o bs -> Forall request_ok l -> serve_all addr ds o l = (out, o') ->
  grows o o' /\ Forall2 (fun r b => b_len b = r_n r /\ inside o' b /\
      (b_off b = 0 /\ (length o <= b_obj b)%nat \/ aligned o' (r_align r) b) /\
      (r_n r <= 1024 -> r_abi r = false -> aligned o' (r_align r) b)) l out /\
  (forall b b', In b bs -> In b' out -> disjoint b b') /\ pairwise disjoint out.
Proof.
  induction l as [|r l IH]; intros ds o bs out o' HO I F H; cbn [serve_all] in H.
  - injection H as <- <-. repeat split; [apply grows_refl|constructor|intros ? ? ? []|].
    intros i j a b Hi. destruct i; discriminate Hi.
  - inversion F as [|? ? FR FL]; subst. destruct (serve addr ds o r) as [[b ds1] o1] eqn:S.
    destruct (serve_all addr ds1 o1 l) as [out1 o2] eqn:SA. injection H as <- <-.
    destruct (serve_spec ds o bs r b ds1 o1 (heap_grows _ _ (serve_all_grows _ _ _ _ _ SA) HO) I FR S) as (G & I' & IN & LEN & AL & AL2 & DJ).
    destruct (IH ds1 o1 (b :: bs) out1 o2 HO I' FL SA) as (G' & F' & DJ' & PW).
    split; [eapply grows_trans; eassumption|]. split; [|split].
    + constructor.
      * split; [exact LEN|]. split; [eapply inside_grows; eassumption|].
        unfold aligned in *. rewrite (address_grows _ _ _ G' IN). auto.
      * eapply Forall2_imp; [|exact F']. cbn. intros r' b' (Q1 & Q2 & Q3 & Q4). split; [exact Q1|]. split; [exact Q2|]. split; [|exact Q4].
        pose proof (grows_len _ _ G). destruct Q3 as [[Q3 Q5]|Q3]; [left; split; [exact Q3|lia]|right; exact Q3].
    + intros b1 b2 HB [<-|HO2]; [apply disjoint_sym, DJ, HB|]. apply DJ'; [right; exact HB|exact HO2].
    + intros i j a c Hi Hj NE. destruct i as [|i], j as [|j]; [now destruct NE| | |].
      * injection Hi as <-. apply DJ'; [now left|]. eapply nth_error_In, Hj.
      * injection Hj as <-. apply disjoint_sym, DJ'; [now left|]. eapply nth_error_In, Hi.
      * apply (PW i j a c Hi Hj). congruence.
Qed.
End Run.

Lemma empty_inv : inv (fun _ => None) [] [].
Proof. split; [|split; [|split]]; intros; try discriminate; try contradiction. Qed.

Lemma history_spec : forall addr l out o, history addr l = (out, o) -> heap_ok addr o -> Forall request_ok l ->
  Forall2 (fun r b => b_len b = r_n r /\ inside o b /\
      (b_off b = 0 \/ address addr o b mod r_align r = 0) /\
      (r_n r <= 1024 -> r_abi r = false -> address addr o b mod r_align r = 0)) l out /\
  pairwise disjoint out.
Proof.
  intros addr l out o H HO F. destruct (serve_all_spec addr l _ _ _ _ _ HO empty_inv F H) as (_ & F2 & _ & PW).
  split; [|exact PW]. eapply Forall2_imp; [|exact F2]. cbn. intros r b (Q1 & Q2 & Q3 & Q4). unfold aligned in *.
  repeat split; auto. destruct Q3 as [[Q3 _]|Q3]; auto.
Qed.
