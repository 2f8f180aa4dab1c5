(** Writing to the buffer: single writes, and what the message holds after them. *)
From Coq Require Import Lia Init.Byte.
From Verif Require Import Base Wire Value HMem HDecoder HEncoder OwnSpec OwnMem OwnPost MarSpec.
Open Scope nat_scope.

(** ** Lists *)
Definition splice {X} (k : nat) (w l : list X) : list X := firstn k l ++ w ++ skipn (k + length w) l.
Lemma splice_mid : forall {X} (a w w' c : list X), length w = length w' -> splice (length a) w (a ++ w' ++ c) = a ++ w ++ c.
Proof.
  intros X a w w' c H. unfold splice. rewrite firstn_app, firstn_all, Nat.sub_diag. cbn. rewrite app_nil_r. f_equal. f_equal.
  rewrite skipn_app. rewrite (skipn_all2 a) by lia. cbn. replace (length a + length w - length a) with (length w') by lia.
  rewrite skipn_app, skipn_all, Nat.sub_diag. reflexivity.
Qed.
Lemma cut3 : forall {X} (l : list X) k n, k + n <= length l -> exists a w c, l = a ++ w ++ c /\ length a = k /\ length w = n.
Proof.
  intros X l k n H. exists (firstn k l), (firstn n (skipn k l)), (skipn n (skipn k l)).
  rewrite (firstn_skipn n), (firstn_skipn k). repeat split; rewrite firstn_length, ?skipn_length; lia.
Qed.
Lemma splice_length : forall {X} k (w l : list X), k + length w <= length l -> length (splice k w l) = length l.
Proof.
  intros X k w l H. destruct (cut3 l k (length w) H) as (a & w' & c & -> & <- & Hw).
  rewrite splice_mid by auto. rewrite !app_length. lia.
Qed.
Lemma splice_nth : forall {X} k (w l : list X) i, k + length w <= length l -> ~ (k <= i < k + length w) ->
  nth_error (splice k w l) i = nth_error l i.
Proof.
  intros X k w l i H D. destruct (cut3 l k (length w) H) as (a & w' & c & -> & <- & Hw).
  rewrite splice_mid by auto. destruct (Nat.ltb_spec i (length a)).
  - now rewrite !nth_error_app1 by lia.
  - rewrite !(nth_error_app2 a) by lia. rewrite !nth_error_app2 by lia. f_equal. lia.
Qed.
Lemma firstn_skipn_nth : forall {X} (l l' : list X) o n,
  (forall i, o <= i < o + n -> nth_error l' i = nth_error l i) -> firstn n (skipn o l') = firstn n (skipn o l).
Proof.
  intros X l l' o n. revert l l' n. induction o as [|o IH]; intros l l' n H.
  - cbn. revert l l' H. induction n as [|n IHn]; intros l l' H; [reflexivity|].
    pose proof (H 0 ltac:(lia)) as H0. destruct l as [|x l], l' as [|y l']; cbn in H0; try discriminate; [reflexivity|].
    injection H0 as ->. cbn. f_equal. apply IHn. intros i Hi. apply (H (S i)). lia.
  - destruct l as [|x l], l' as [|y l'].
    + reflexivity.
    + cbn. rewrite firstn_nil. transitivity (firstn n (skipn o (@nil X))); [|now rewrite skipn_nil, firstn_nil].
      apply IH. intros i Hi. specialize (H (S i) ltac:(lia)). cbn in H. rewrite H. now destruct i.
    + cbn. rewrite firstn_nil. transitivity (firstn n (skipn o (@nil X))); [now rewrite skipn_nil, firstn_nil|].
      apply IH. intros i Hi. specialize (H (S i) ltac:(lia)). cbn in H. rewrite <- H. now destruct i.
    + cbn. apply IH. intros i Hi. apply (H (S i)). lia.
Qed.
Lemma firstn_exact : forall {X} (a c : list X) n, length a = n -> firstn n (a ++ c) = a.
Proof. intros X a c n <-. rewrite firstn_app, firstn_all, Nat.sub_diag. cbn. apply app_nil_r. Qed.
(** Reading a range after writing into it, or at its end *)
Lemma range_splice : forall {X} (l w : list X) o n j, o + n <= length l -> j + length w <= n ->
  firstn n (skipn o (splice (o + j) w l)) = splice j w (firstn n (skipn o l)).
Proof.
  intros X l w o n j H K.
  destruct (cut3 l o n H) as (a & m & c & -> & <- & Hm).
  destruct (cut3 m j (length w) ltac:(lia)) as (m1 & w' & m2 & -> & Hj & Hw).
  rewrite !app_length in Hm.
  replace (a ++ (m1 ++ w' ++ m2) ++ c) with ((a ++ m1) ++ w' ++ (m2 ++ c)) by now rewrite <- !app_assoc.
  replace (length a + j) with (length (a ++ m1)) by (rewrite app_length; lia). rewrite splice_mid by auto.
  rewrite <- (app_assoc a m1). rewrite !(skipn_app (length a) a), !skipn_all, !Nat.sub_diag. cbn [skipn app].
  replace (m1 ++ w ++ m2 ++ c) with ((m1 ++ w ++ m2) ++ c) by now rewrite <- !app_assoc.
  replace ((a ++ m1) ++ w' ++ m2 ++ c) with (a ++ (m1 ++ w' ++ m2) ++ c) by now rewrite <- !app_assoc.
  rewrite !(skipn_app (length a) a), !skipn_all, !Nat.sub_diag. cbn [skipn app].
  rewrite !firstn_exact by (rewrite !app_length; lia). subst j. now rewrite splice_mid.
Qed.
Lemma range_end : forall {X} (l w : list X) o n, o + n + length w <= length l ->
  firstn (n + length w) (skipn o (splice (o + n) w l)) = firstn n (skipn o l) ++ w.
Proof.
  intros X l w o n H. rewrite range_splice by lia. unfold splice. rewrite firstn_firstn, Nat.min_l by lia. f_equal.
  rewrite skipn_all2 by (rewrite firstn_length; lia). apply app_nil_r.
Qed.

(** ** [wrote] *)
Lemma wrote_refl : forall lo h b, buffer h b -> wrote lo h b h b.
Proof. intros lo h b B. constructor; auto. intros l _ H. exists l. auto. Qed.
Lemma wrote_trans : forall lo h b h1 b1 h2 b2, buffer h b -> wrote lo h b h1 b1 -> wrote lo h1 b1 h2 b2 -> wrote lo h b h2 b2.
Proof.
  intros lo h b h1 b1 h2 b2 [BL BC] W V. destruct W as [n1 o1 c1 w1 k1 l1 p1], V as [n2 o2 c2 w2 k2 l2 p2]. constructor.
  - lia.
  - intros o Lo Do. rewrite <- (o1 o Lo Do). apply o2; [lia|].
    destruct w1 as [(E1 & E2 & E3)|(E1 & _)]; [rewrite E1, E3; exact Do|left; lia].
  - intros l C HO. destruct (c1 l C HO) as (l' & HO' & Ln & Nt).
    destruct w1 as [(E1 & E2 & E3)|(E1 & E2)].
    + rewrite <- E1 in HO'. destruct (c2 l' ltac:(lia) HO') as (l2' & HO2 & Ln2 & Nt2). rewrite E1 in HO2.
      exists l2'. split; [exact HO2|]. split; [lia|]. intros i Hi. rewrite Nt2 by (rewrite E2, E3; exact Hi). now apply Nt.
    + exists l'. split; [|auto]. rewrite o2; [exact HO'| |left]; destruct BC as [BC|(BC & _)]; lia.
  - destruct w2 as [(E1 & E2 & E3)|(E1 & E2)]; [|right; lia]. rewrite E1, E2, E3. destruct w1 as [K|K]; [now left|now right].
  - exact k2.
  - lia.
  - now rewrite p2.
Qed.
Lemma buffer_rd : forall h b, buffer h b -> length (rd h b) = s_len b.
Proof.
  intros h b [H [C|(A & l & HO & C)]]; unfold rd.
  - replace (s_len b) with 0 by lia. reflexivity.
  - unfold bytes_of. rewrite HO, firstn_length, skipn_length. lia.
Qed.

(** ** The message after writes *)
Lemma wrote_clear : forall lo h b h' b' s, buffer h b -> wrote lo h b h' b' -> clear h lo b s -> clear h' lo b' s /\ rd h' s = rd h s.
Proof.
  intros lo h b h' b' s [BL BC] [n o c w k l p] [Z|(A & V & D)].
  { split; [now left|]. unfold rd. now rewrite Z. }
  assert (W : s_arr s <> s_arr b' \/ forall i, s_off s <= i < s_off s + s_len s -> s_off b' + lo <= i < s_off b' + s_cap b' -> False).
  { destruct w as [(E1 & E2 & E3)|(E1 & _)]; [rewrite E1, E2, E3; exact D|left; lia]. }
  assert (NB : s_arr s <> s_arr b \/ s_cap b = 0 -> clear h' lo b' s /\ rd h' s = rd h s).
  { intro NE. pose proof (o _ A NE) as EO. split.
    - right. split; [lia|]. split; [|exact W]. unfold bytes_of in *. now rewrite EO.
    - apply rd_ext. now right. }
  destruct (Nat.eq_dec (s_arr s) (s_arr b)) as [Ea|Na]; [|now apply NB; left].
  destruct (Nat.eq_dec (s_cap b) 0) as [C0|C0]; [now apply NB; right|].
  destruct BC as [BC|(BA & l0 & HO & BC)]; [contradiction|].
  destruct (c l0 ltac:(lia) HO) as (l1 & HO1 & Ln & Nt).
  destruct D as [D|D]; [contradiction|].
  assert (Eb : bytes_of h (s_arr s) = l0) by (unfold bytes_of; now rewrite Ea, HO).
  assert (Eb' : bytes_of h' (s_arr s) = l1) by (unfold bytes_of; now rewrite Ea, HO1).
  split.
  - right. split; [lia|]. split; [|exact W]. rewrite Eb', Ln, <- Eb. exact V.
  - unfold rd. rewrite Eb, Eb'. apply firstn_skipn_nth. intros i Hi. apply Nt. intro K. exact (D i Hi K).
Qed.

Scheme sees_mind := Minimality for sees Sort Prop
  with sees_all_mind := Minimality for sees_all Sort Prop
  with sees_entries_mind := Minimality for sees_entries Sort Prop.
Combined Scheme sees_mutind from sees_mind, sees_all_mind, sees_entries_mind.

Lemma wrote_cells : forall lo h b h' b' o, buffer h b -> wrote lo h b h' b' -> o < next h ->
  match objs h o with OBytes _ => True | _ => objs h' o = objs h o end.
Proof.
  intros lo h b h' b' o [BL BC] W Lo. destruct (objs h o) as [l|l|l] eqn:E; [exact I| |].
  - rewrite <- E. apply (w_old _ _ _ _ _ W); [exact Lo|]. destruct BC as [BC|(_ & l0 & HO & _)]; [now right|].
    left. intros ->. congruence.
  - rewrite <- E. apply (w_old _ _ _ _ _ W); [exact Lo|]. destruct BC as [BC|(_ & l0 & HO & _)]; [now right|].
    left. intros ->. congruence.
Qed.
Lemma wrote_load : forall lo h b h' b' L x, buffer h b -> wrote lo h b h' b' -> l_obj L < next h -> hload h L = Some x -> hload h' L = Some x.
Proof.
  intros lo h b h' b' L x B W Lo H. pose proof (wrote_cells lo h b h' b' (l_obj L) B W Lo) as K.
  unfold hload, cells_of in *. destruct (objs h (l_obj L)) eqn:E; [destruct (l_idx L); discriminate H|now rewrite K|destruct (l_idx L); discriminate H].
Qed.
Lemma wrote_sees_all : forall lo h b h' b', buffer h b -> wrote lo h b h' b' ->
  (forall x v, sees h (clear h lo b) x v -> sees h' (clear h' lo b') x v) /\
  (forall xs vs, sees_all h (clear h lo b) xs vs -> sees_all h' (clear h' lo b') xs vs) /\
  (forall xs vs, sees_entries h (clear h lo b) xs vs -> sees_entries h' (clear h' lo b') xs vs).
Proof.
  intros lo h b h' b' B W. pose proof (w_next _ _ _ _ _ W) as N. apply sees_mutind; intros; try (constructor; auto; fail).
  - destruct (wrote_clear _ _ _ _ _ s B W H) as [C <-]. now constructor.
  - destruct (wrote_clear _ _ _ _ _ s B W H) as [C <-]. now constructor.
  - apply sees_ptr with (x := x); [lia|eapply wrote_load; eauto|assumption].
  - apply sees_slice with (xs := xs) (ys := ys); auto; [lia|].
    match goal with H : has_cells _ _ _ _ |- _ => destruct H as (p & q & Hc & K1 & K2 & K3) end.
    exists p, q. split; [|auto]. pose proof (wrote_cells lo h b h' b' (s_arr s) B W ltac:(assumption)) as K.
    unfold cells_of in *. destruct (objs h (s_arr s)) eqn:E; [|now rewrite K|].
    + exfalso. apply (f_equal (@length mv)) in Hc. rewrite !app_length in Hc. cbn in Hc. lia.
    + exfalso. apply (f_equal (@length mv)) in Hc. rewrite !app_length in Hc. cbn in Hc. lia.
  - apply sees_map with (ents := ents); auto; [lia|]. pose proof (wrote_cells lo h b h' b' o B W ltac:(assumption)) as K.
    rewrite H0 in K. congruence.
  - constructor; [assumption|]. match goal with H : sees_unknown _ _ _ _ |- _ => inversion H; subst end; [constructor|].
    destruct (wrote_clear _ _ _ _ _ u0 B W H2) as [C <-]. now constructor.
  - apply sees_iface with (x := x); [lia|eapply wrote_load; eauto|assumption].
Qed.

Lemma sees_weaken_all : forall h (P Q : slice -> Prop), (forall s, P s -> Q s) ->
  (forall x v, sees h P x v -> sees h Q x v) /\ (forall xs vs, sees_all h P xs vs -> sees_all h Q xs vs) /\
  (forall xs vs, sees_entries h P xs vs -> sees_entries h Q xs vs).
Proof.
  intros h P Q I. apply sees_mutind; intros; try (constructor; auto; fail).
  - now apply sees_ptr with (x := x).
  - now apply sees_slice with (xs := xs) (ys := ys).
  - now apply sees_map with (ents := ents).
  - constructor; [assumption|]. destruct H1; constructor; auto.
  - now apply sees_iface with (x := x).
Qed.
Lemma sees_weaken : forall h (P Q : slice -> Prop) x v, (forall s, P s -> Q s) -> sees h P x v -> sees h Q x v.
Proof. intros h P Q x v I. apply (sees_weaken_all h P Q I). Qed.
Lemma sees_any : forall h P x v, sees h P x v -> sees h (fun _ => True) x v.
Proof. intros h P x v. now apply sees_weaken. Qed.
Lemma nth_error_ext : forall {X} (l l' : list X), (forall i, nth_error l i = nth_error l' i) -> l = l'.
Proof.
  induction l as [|a l IH]; intros [|b l'] H; auto; try (specialize (H 0); discriminate H).
  pose proof (H 0) as H0. injection H0 as ->. f_equal. apply IH. intro i. apply (H (S i)).
Qed.

(** What is read from objects other than the buffer's is clear of it. *)
Lemma reads_sees_all : forall h (A : nat -> Prop) lo c, (forall o, A o -> o < next h /\ o <> s_arr c) ->
  (forall x v, reads h A x v -> sees h (clear h lo c) x v) /\
  (forall xs vs, reads_all h A xs vs -> sees_all h (clear h lo c) xs vs) /\
  (forall xs vs, reads_entries h A xs vs -> sees_entries h (clear h lo c) xs vs).
Proof.
  intros h A lo c HA.
  assert (IB : forall s, in_bytes h A s -> clear h lo c s).
  { intros s [Z|[K V]]; [now left|]. destruct (HA _ K). right. auto. }
  apply reads_mutind; intros; try (constructor; auto; fail).
  - apply sees_ptr with (x := x); auto. now apply HA.
  - apply sees_slice with (xs := xs) (ys := ys); auto. now apply HA.
  - apply sees_map with (ents := ents); auto. now apply HA.
  - constructor; [assumption|]. match goal with H : reads_unknown _ _ _ _ |- _ => destruct H end; constructor; auto.
  - apply sees_iface with (x := x); auto. now apply HA.
Qed.

(** ** Single writes *)
Definition ready (lo : nat) (h : mem) (b : slice) : Prop := buffer h b /\ lo <= s_len b.
Lemma ready_wrote : forall lo h b h' b', ready lo h b -> wrote lo h b h' b' -> ready lo h' b'.
Proof. intros lo h b h' b' [B L] W. split; [apply (w_ok _ _ _ _ _ W)|]. pose proof (w_len _ _ _ _ _ W). lia. Qed.

Lemma write_bytes_objs : forall h o k w l, objs h o = OBytes l ->
  objs (write_bytes h o k w) o = OBytes (splice k w l) /\ (forall o', o' <> o -> objs (write_bytes h o k w) o' = objs h o') /\
  next (write_bytes h o k w) = next h.
Proof.
  intros h o k w l H. unfold write_bytes, bytes_of. rewrite H. repeat split; [apply set_obj_same|].
  intros o' D. now apply set_obj_other.
Qed.
(** A write at or above [lo], below the length *)
Lemma write_in : forall lo h b j w, ready lo h b -> lo <= j -> j + length w <= s_len b -> 0 < length w ->
  wrote lo h b (write_bytes h (s_arr b) (s_off b + j) w) b /\
  rd (write_bytes h (s_arr b) (s_off b + j) w) b = splice j w (rd h b).
Proof.
  intros lo h b j w [B Ll] Lj Lw Pw. destruct B as [BL [BC|(A & l & HO & BC)]]; [lia|].
  destruct (write_bytes_objs h (s_arr b) (s_off b + j) w l HO) as (E1 & E2 & E3).
  set (h' := write_bytes h (s_arr b) (s_off b + j) w) in *.
  assert (R : rd h' b = splice j w (rd h b)).
  { unfold rd, bytes_of. rewrite E1, HO. apply range_splice; lia. }
  split; [|exact R]. constructor.
  - lia.
  - intros o Lo Do. apply E2. destruct Do; [assumption|lia].
  - intros l0 _ HO'. rewrite HO in HO'. injection HO' as <-. exists (splice (s_off b + j) w l). split; [exact E1|].
    split; [apply splice_length; lia|]. intros i Hi. apply splice_nth; [lia|]. intro K. apply Hi. lia.
  - left. auto.
  - split; [exact BL|]. right. split; [lia|]. exists (splice (s_off b + j) w l). split; [exact E1|]. rewrite splice_length by lia. exact BC.
  - lia.
  - rewrite R. unfold splice. rewrite firstn_app, firstn_firstn, Nat.min_l by lia.
    rewrite firstn_length. replace (length (rd h b)) with (s_len b).
    + replace (lo - Nat.min j (s_len b)) with 0 by lia. cbn. apply app_nil_r.
    + symmetry. apply buffer_rd. split; [exact BL|]. right. eauto.
Qed.
Lemma put_spec : forall capf lo h b raw, ready lo h b ->
  wrote lo h b (fst (put capf h b raw)) (snd (put capf h b raw)) /\
  rd (fst (put capf h b raw)) (snd (put capf h b raw)) = rd h b ++ raw /\
  s_len (snd (put capf h b raw)) = s_len b + length raw.
Proof.
  intros capf lo h b raw [B Ll]. pose proof (buffer_rd _ _ B) as Lr. unfold put. destruct raw as [|c raw].
  { cbn [fst snd]. rewrite app_nil_r. split; [now apply wrote_refl|]. split; [reflexivity|cbn; lia]. }
  set (w := c :: raw). assert (Pw : 0 < length w) by (cbn; lia). clearbody w. unfold happend.
  destruct (Nat.leb_spec (s_len b + length w) (s_cap b)) as [C|C]; cbn [fst snd].
  - destruct B as [BL [BC|(A & l & HO & BC)]]; [lia|].
    destruct (write_bytes_objs h (s_arr b) (s_off b + s_len b) w l HO) as (E1 & E2 & E3).
    set (h' := write_bytes h (s_arr b) (s_off b + s_len b) w) in *.
    set (b' := mkSl (s_arr b) (s_off b) (s_len b + length w) (s_cap b)).
    assert (R : rd h' b' = rd h b ++ w).
    { unfold rd, bytes_of, b'. cbn [s_arr s_off s_len]. rewrite E1, HO. apply range_end. lia. }
    split; [|split; [exact R|reflexivity]]. constructor; cbn [s_arr s_off s_len s_cap b'].
    + lia.
    + intros o Lo Do. apply E2. destruct Do; [assumption|lia].
    + intros l0 _ HO'. rewrite HO in HO'. injection HO' as <-. exists (splice (s_off b + s_len b) w l). split; [exact E1|].
      split; [apply splice_length; lia|]. intros i Hi. apply splice_nth; [lia|]. intro K. apply Hi. lia.
    + left. auto.
    + split; [exact C|]. right. split; [cbn; lia|]. exists (splice (s_off b + s_len b) w l). split; [exact E1|]. rewrite splice_length by lia. exact BC.
    + lia.
    + rewrite R, firstn_app. replace (lo - length (rd h b)) with 0 by lia. cbn. apply app_nil_r.
  - set (n := s_len b + length w). set (k := Nat.max n (capf n)). rewrite halloc_eq. cbn [fst snd].
    set (arr := rd h b ++ w ++ repeat x00 (k - n)). set (h' := fst (halloc h (OBytes arr))). set (b' := mkSl (next h) 0 n k).
    assert (La : length arr = k) by (unfold arr; rewrite !app_length, repeat_length; lia).
    assert (HO : objs h' (next h) = OBytes arr) by apply halloc_new.
    assert (R : rd h' b' = rd h b ++ w).
    { unfold rd at 1, bytes_of, b'. cbn [s_arr s_off s_len skipn]. rewrite HO. unfold arr. rewrite app_assoc, firstn_app.
      rewrite (firstn_all2 (rd h b ++ w)) by (rewrite app_length; lia). replace (n - length (rd h b ++ w)) with 0 by (rewrite app_length; lia).
      cbn. apply app_nil_r. }
    split; [|split; [exact R|reflexivity]]. constructor; cbn [s_arr s_off s_len s_cap b'].
    + unfold h'. rewrite halloc_next. lia.
    + intros o Lo _. now apply halloc_old.
    + intros l Cb HO'. exists l. split; [|auto]. destruct B as [_ [BC|(A & _)]]; [lia|]. rewrite <- HO'. now apply halloc_old.
    + right. split; lia.
    + split; [cbn; lia|]. right. split; [unfold h'; rewrite halloc_next; cbn; lia|]. exists arr. split; [exact HO|]. cbn. lia.
    + lia.
    + rewrite R, firstn_app. replace (lo - length (rd h b)) with 0 by lia. cbn. apply app_nil_r.
Qed.
