(** Proofs about string literals. *)
From Coq Require Import Strings.String Init.Byte Lia.
From Verif Require Import Base GoStr StrFacts WireProofs StrLit StrLitSpec.
Import StringSyntax.
Open Scope N_scope.

Lemma in_range_spec : forall a n b, in_range a n b = true <-> a <= n <= b.
Proof. intros. unfold in_range. rewrite andb_true_iff, !N.leb_le. tauto. Qed.
Lemma b2n_lt' : forall c, b2n c < 256.
Proof. intro c. destruct c; vm_compute; reflexivity. Qed.
Lemma b2n_small : forall n, n < 256 -> b2n (n2b n) = n.
Proof. intros. rewrite b2n_n2b. now apply N.mod_small. Qed.
Lemma beqb_spec : forall a b, beqb a b = true <-> a = b.
Proof.
  intros a b. unfold beqb. rewrite N.eqb_eq. split; [|congruence]. intro H. rewrite <- (n2b_b2n a), H. apply n2b_b2n.
Qed.
Lemma as_n2b : forall c n, b2n c = n -> c = n2b n.
Proof. intros c n <-. symmetry. apply n2b_b2n. Qed.

(** ** UTF-8 *)
Lemma decode_sound : forall s r n, DecodeRune s = Some (r, n) -> exists u, utf8 r u /\ s = u ++ skipn n s /\ n = length u.
Proof.
  intros [|a s] r n H; [discriminate|]. unfold DecodeRune in H. pose proof (b2n_lt' a) as La.
  destruct (b2n a <? 128) eqn:A1.
  { injection H as <- <-. apply N.ltb_lt in A1. exists [n2b (b2n a)]. split; [now constructor|]. rewrite n2b_b2n. split; reflexivity. }
  apply N.ltb_ge in A1. destruct (in_range 194 (b2n a) 223) eqn:A2.
  { apply in_range_spec in A2. destruct s as [|b s]; [discriminate|]. unfold cont in H. destruct (in_range 128 (b2n b) 191) eqn:B; [|discriminate].
    apply in_range_spec in B. injection H as <- <-. exists [a; b]. split; [|split; reflexivity].
    rewrite (as_n2b a (192 + (b2n a - 192))), (as_n2b b (128 + (b2n b - 128))) by lia.
    rewrite !b2n_small by lia. apply utf8_2 with (a := b2n a - 192) (b := b2n b - 128); lia. }
  destruct (in_range 224 (b2n a) 239) eqn:A3.
  { apply in_range_spec in A3. destruct s as [|b [|c s]]; try discriminate. apply not_true_iff_false in A2. rewrite in_range_spec in A2.
    destruct (in_range (if b2n a =? 224 then 160 else 128) (b2n b) (if b2n a =? 237 then 159 else 191) && cont c) eqn:B; [|discriminate].
    apply andb_prop in B. destruct B as [B C]. unfold cont in C. apply in_range_spec in C, B. injection H as <- <-.
    exists [a; b; c]. split; [|split; reflexivity].
    assert (QB : 128 <= b2n b <= 191). { destruct (b2n a =? 224), (b2n a =? 237); lia. }
    replace ([a; b; c]) with [n2b (224 + (b2n a - 224)); n2b (128 + (b2n b - 128)); n2b (128 + (b2n c - 128))].
    2:{ rewrite (N.add_comm 224), (N.add_comm 128), (N.add_comm 128 (b2n c - 128)), !N.sub_add by lia. now rewrite !n2b_b2n. }
    apply utf8_3; try lia.
    - destruct (b2n a =? 224) eqn:Q; [apply N.eqb_eq in Q; lia|apply N.eqb_neq in Q; lia].
    - unfold surrogate. destruct (b2n a =? 237) eqn:Q; [apply N.eqb_eq in Q; lia|apply N.eqb_neq in Q; lia]. }
  destruct (in_range 240 (b2n a) 244) eqn:A4; [|discriminate].
  apply in_range_spec in A4. destruct s as [|b [|c [|d s]]]; try discriminate.
  destruct (in_range (if b2n a =? 240 then 144 else 128) (b2n b) (if b2n a =? 244 then 143 else 191) && cont c && cont d) eqn:B; [|discriminate].
  apply andb_prop in B. destruct B as [B D]. apply andb_prop in B. destruct B as [B C]. unfold cont in C, D. apply in_range_spec in C, B, D. injection H as <- <-.
  exists [a; b; c; d]. split; [|split; reflexivity].
  assert (QB : 128 <= b2n b <= 191). { destruct (b2n a =? 240), (b2n a =? 244); lia. }
  replace ([a; b; c; d]) with [n2b (240 + (b2n a - 240)); n2b (128 + (b2n b - 128)); n2b (128 + (b2n c - 128)); n2b (128 + (b2n d - 128))].
  2:{ rewrite (N.add_comm 240), (N.add_comm 128), (N.add_comm 128 (b2n c - 128)), (N.add_comm 128 (b2n d - 128)), !N.sub_add by lia. now rewrite !n2b_b2n. }
  apply utf8_4; try lia.
  destruct (b2n a =? 240) eqn:Q; [apply N.eqb_eq in Q|apply N.eqb_neq in Q];
    (destruct (b2n a =? 244) eqn:Q'; [apply N.eqb_eq in Q'|apply N.eqb_neq in Q']); lia.
Qed.
Lemma range_false : forall a n b, n < a \/ b < n -> in_range a n b = false.
Proof. intros a n b H. apply not_true_iff_false. rewrite in_range_spec. lia. Qed.
Lemma decode_complete : forall r u s, utf8 r u -> DecodeRune (u ++ s) = Some (r, length u).
Proof.
  intros r u s H. destruct H as [a A|a b c A B -> C|a b d c A B D -> C SU|a b d e c A B D E' -> C]; cbn [app DecodeRune length].
  - rewrite b2n_small by lia. apply N.ltb_lt in A. now rewrite A.
  - unfold cont. rewrite !b2n_small by lia. rewrite (proj2 (N.ltb_ge _ _)) by lia.
    rewrite (proj2 (in_range_spec 194 _ 223)) by lia. rewrite (proj2 (in_range_spec 128 _ 191)) by lia. do 2 f_equal. lia.
  - unfold cont. rewrite !b2n_small by lia. rewrite (proj2 (N.ltb_ge _ _)) by lia.
    rewrite (range_false 194) by lia. rewrite (proj2 (in_range_spec 224 _ 239)) by lia.
    rewrite (proj2 (in_range_spec 128 (128 + d) 191)) by lia.
    rewrite (proj2 (in_range_spec _ (128 + b) _)).
    + cbn [andb]. do 2 f_equal. lia.
    + unfold surrogate in SU. destruct (224 + a =? 224) eqn:Q; [apply N.eqb_eq in Q|apply N.eqb_neq in Q];
      (destruct (224 + a =? 237) eqn:Q'; [apply N.eqb_eq in Q'|apply N.eqb_neq in Q']); lia.
  - unfold cont. rewrite !b2n_small by lia. rewrite (proj2 (N.ltb_ge _ _)) by lia.
    rewrite (range_false 194) by lia. rewrite (range_false 224) by lia. rewrite (proj2 (in_range_spec 240 _ 244)) by lia.
    rewrite (proj2 (in_range_spec 128 (128 + d) 191)) by lia. rewrite (proj2 (in_range_spec 128 (128 + e) 191)) by lia.
    rewrite (proj2 (in_range_spec _ (128 + b) _)).
    + cbn [andb]. do 2 f_equal. lia.
    + destruct (240 + a =? 240) eqn:Q; [apply N.eqb_eq in Q|apply N.eqb_neq in Q];
      (destruct (240 + a =? 244) eqn:Q'; [apply N.eqb_eq in Q'|apply N.eqb_neq in Q']); lia.
Qed.
Lemma encode_utf8 : forall c, c < 0x110000 -> ~ surrogate c -> utf8 c (EncodeRune c).
Proof.
  intros c H SU. unfold EncodeRune. destruct (c <? 128) eqn:A; [apply N.ltb_lt in A; now constructor|]. apply N.ltb_ge in A.
  assert (M : forall x, x mod 64 < 64). { intro. apply N.mod_lt. discriminate. }
  pose proof (N.div_mod c 64 ltac:(discriminate)) as D1. pose proof (M c) as M1.
  destruct (c <? 2048) eqn:B; [apply N.ltb_lt in B|apply N.ltb_ge in B].
  { apply utf8_2; try lia; try (apply N.div_lt_upper_bound; lia). }
  pose proof (N.div_mod (c / 64) 64 ltac:(discriminate)) as D2. pose proof (M (c / 64)) as M2. rewrite N.div_div in D2 by discriminate. cbn in D2.
  destruct (c <? 65536) eqn:C; [apply N.ltb_lt in C|apply N.ltb_ge in C].
  { apply utf8_3; try assumption; try lia; try (apply N.div_lt_upper_bound; lia). }
  pose proof (N.div_mod (c / 4096) 64 ltac:(discriminate)) as D3. pose proof (M (c / 4096)) as M3. rewrite N.div_div in D3 by discriminate. cbn in D3.
  apply utf8_4; try assumption; try lia; try (apply N.div_lt_upper_bound; lia).
Qed.
Lemma utf8_valid : forall c u, utf8 c u -> c < 0x110000 /\ ~ surrogate c /\ u <> [].
Proof. intros c u H. unfold surrogate. destruct H; (split; [lia|split; [try lia; assumption|discriminate]]). Qed.
Lemma utf8_unique : forall c u, utf8 c u -> u = EncodeRune c.
Proof.
  intros c u H. destruct (utf8_valid c u H) as (L & SU & _). pose proof (encode_utf8 c L SU) as E.
  pose proof (decode_complete c u [] H) as D1. pose proof (decode_complete c (EncodeRune c) [] E) as D2.
  destruct H as [a A|a b c A B -> C|a b d c A B D -> C SU'|a b d e c A B D E' -> C]; unfold EncodeRune.
  - apply N.ltb_lt in A. now rewrite A.
  - rewrite (proj2 (N.ltb_ge _ _)) by lia. rewrite (proj2 (N.ltb_lt _ 2048)) by lia.
    rewrite N.div_add_l, N.div_small, N.add_0_r by lia. now rewrite (N.add_comm (a * 64) b), N.mod_add, N.mod_small by lia.
  - rewrite (proj2 (N.ltb_ge _ _)) by lia. rewrite (proj2 (N.ltb_ge _ 2048)) by lia. rewrite (proj2 (N.ltb_lt _ 65536)) by lia.
    assert (Q1 : (a * 4096 + b * 64 + d) mod 64 = d).
    { replace (a * 4096 + b * 64 + d) with (d + (a * 64 + b) * 64) by lia. rewrite N.mod_add by discriminate. now apply N.mod_small. }
    assert (Q2 : (a * 4096 + b * 64 + d) / 64 = a * 64 + b).
    { replace (a * 4096 + b * 64 + d) with ((a * 64 + b) * 64 + d) by lia. rewrite N.div_add_l by discriminate. rewrite (N.div_small d) by assumption. lia. }
    assert (Q3 : (a * 4096 + b * 64 + d) / 4096 = a).
    { replace (a * 4096 + b * 64 + d) with (a * 4096 + (b * 64 + d)) by lia. rewrite N.div_add_l by discriminate. rewrite (N.div_small (b * 64 + d)) by lia. lia. }
    rewrite Q1, Q2, Q3. rewrite (N.add_comm (a * 64)), N.mod_add, N.mod_small by lia. reflexivity.
  - rewrite (proj2 (N.ltb_ge _ _)) by lia. rewrite (proj2 (N.ltb_ge _ 2048)) by lia. rewrite (proj2 (N.ltb_ge _ 65536)) by lia.
    remember (a * 262144 + b * 4096 + d * 64 + e) as c eqn:QC.
    assert (Q1 : c mod 64 = e).
    { replace c with (e + (a * 4096 + b * 64 + d) * 64) by lia. rewrite N.mod_add by discriminate. now apply N.mod_small. }
    assert (Q2 : c / 64 = a * 4096 + b * 64 + d).
    { replace c with ((a * 4096 + b * 64 + d) * 64 + e) by lia. rewrite N.div_add_l by discriminate. rewrite (N.div_small e) by assumption. lia. }
    assert (Q3 : c / 4096 = a * 64 + b).
    { replace c with ((a * 64 + b) * 4096 + (d * 64 + e)) by lia. rewrite N.div_add_l by discriminate. rewrite (N.div_small (d * 64 + e)) by lia. lia. }
    assert (Q4 : c / 262144 = a).
    { replace c with (a * 262144 + (b * 4096 + d * 64 + e)) by lia. rewrite N.div_add_l by discriminate. rewrite (N.div_small (b * 4096 + d * 64 + e)) by lia. lia. }
    rewrite Q1, Q2, Q3, Q4. rewrite (N.add_comm (a * 64)), (N.mod_add b), (N.mod_small b) by lia.
    replace (a * 4096 + b * 64 + d) with (d + (a * 64 + b) * 64) by lia. rewrite N.mod_add, N.mod_small by lia. reflexivity.
Qed.

(** ** Digits *)
Lemma digit_value_spec : forall c d, digit_value c = Some d <-> digit d c.
Proof.
  intros c d. split.
  - unfold digit_value. intro H. pose proof (b2n_lt' c) as L. destruct (in_range 48 (b2n c) 57) eqn:A.
    { apply in_range_spec in A. injection H as <-. rewrite (as_n2b c (48 + (b2n c - 48))) at 2 by lia. constructor. lia. }
    destruct (in_range 97 (b2n c) 102) eqn:B.
    { apply in_range_spec in B. injection H as <-. rewrite (as_n2b c (97 + (b2n c - 87 - 10))) at 2 by lia. constructor. lia. }
    destruct (in_range 65 (b2n c) 70) eqn:D; [|discriminate].
    apply in_range_spec in D. injection H as <-. rewrite (as_n2b c (65 + (b2n c - 55 - 10))) at 2 by lia. apply dg_upper. lia.
  - intro H. unfold digit_value. destruct H as [d A|d A|d A]; rewrite b2n_small by lia.
    + rewrite (proj2 (in_range_spec _ _ _)) by lia. f_equal. lia.
    + rewrite (range_false 48) by lia. rewrite (proj2 (in_range_spec 97 _ _)) by lia. f_equal. lia.
    + rewrite (range_false 48) by lia. rewrite (range_false 97) by lia. rewrite (proj2 (in_range_spec 65 _ _)) by lia. f_equal. lia.
Qed.
Lemma digits_app : forall base s acc c, digits_value base acc (s ++ [c]) =
  match digits_value base acc s with
  | Some v => match digit_value c with Some d => if d <? base then Some (v * base + d) else None | None => None end
  | None => None
  end.
Proof.
  intros base. induction s as [|x s IH]; intros acc c; cbn [app digits_value]; [reflexivity|].
  destruct (digit_value x) as [d|]; [|reflexivity]. destruct (d <? base); [apply IH|reflexivity].
Qed.
Lemma digits_number : forall base s v, digits_value base 0 s = Some v <-> number base s v.
Proof.
  intros base s. induction s as [|c s IH] using rev_ind; intro v.
  - cbn. split; [intros [= <-]; constructor|]. intro H. inversion H as [Q|s v' c d H1 H2 H3 Q]; [reflexivity|].
    apply app_eq_nil in Q. destruct Q; discriminate.
  - rewrite digits_app. split.
    + destruct (digits_value base 0 s) as [w|] eqn:Q; [|discriminate]. destruct (digit_value c) as [d|] eqn:D; [|discriminate].
      destruct (d <? base) eqn:L; [|discriminate]. intros [= <-]. apply N.ltb_lt in L. constructor; [now apply IH|exact L|now apply digit_value_spec].
    + intro H. inversion H as [Q|s' v' c' d H1 H2 H3 Q].
      * symmetry in Q. apply app_eq_nil in Q. destruct Q; discriminate.
      * apply app_inj_tail in Q. destruct Q as [-> ->]. apply IH in H1. rewrite H1. apply digit_value_spec in H3. rewrite H3.
        apply N.ltb_lt in H2. now rewrite H2.
Qed.
Lemma number_bound : forall base s v, number base s v -> v < base ^ N.of_nat (length s).
Proof.
  intros base s v H. induction H as [|s v c d H IH D C]; [cbn; lia|]. rewrite app_length. cbn [length].
  rewrite Nat.add_1_r, Nat2N.inj_succ, N.pow_succ_r'. nia.
Qed.
Definition is_below (base : N) (c : byte) : bool := match digit_value c with Some d => d <? base | None => false end.
Lemma below_spec : forall base c, is_below base c = true <-> digit_below base c.
Proof.
  intros base c. unfold is_below, digit_below. split.
  - destruct (digit_value c) as [d|] eqn:D; [|discriminate]. intro L. apply N.ltb_lt in L. exists d. split; [exact L|now apply digit_value_spec].
  - intros (d & L & D). apply digit_value_spec in D. rewrite D. now apply N.ltb_lt.
Qed.
Lemma count_step : forall base m c s, count_digits base (S m) (c :: s) = if is_below base c then S (count_digits base m s) else O.
Proof. intros. cbn. unfold is_below. destruct (digit_value c) as [d|]; [|reflexivity]. destruct (d <? base); reflexivity. Qed.
Lemma count_spec : forall base m s, let n := count_digits base m s in
  (n <= m)%nat /\ (n <= length s)%nat /\ Forall (digit_below base) (firstn n s) /\
  (n = m \/ forall c r, skipn n s = c :: r -> ~ digit_below base c).
Proof.
  intros base. induction m as [|m IH]; intros s n; unfold n.
  - cbn. split; [lia|]. split; [lia|]. split; [constructor|now left].
  - destruct s as [|c s]; [cbn; split; [lia|split; [lia|split; [constructor|right; discriminate]]]|].
    rewrite count_step. destruct (is_below base c) eqn:B.
    + destruct (IH s) as (A1 & A2 & A3 & A4). cbn [firstn skipn length]. split; [lia|]. split; [lia|].
      split; [constructor; [now apply below_spec|exact A3]|]. destruct A4 as [A4|A4]; [left; now rewrite A4|now right].
    + cbn. split; [lia|]. split; [lia|]. split; [constructor|]. right. intros c' r [= <- <-]. rewrite <- below_spec. congruence.
Qed.
Lemma count_unique : forall base m ds s, Forall (digit_below base) ds -> (length ds <= m)%nat ->
  (length ds = m \/ forall c r, s = c :: r -> ~ digit_below base c) -> count_digits base m (ds ++ s) = length ds.
Proof.
  intros base m ds s F. revert m. induction F as [|c ds H F IH]; intros m L M.
  - cbn. destruct M as [<-|M]; [reflexivity|]. destruct m; [reflexivity|]. destruct s as [|c s]; [reflexivity|].
    rewrite count_step. destruct (is_below base c) eqn:B; [|reflexivity]. apply below_spec in B. destruct (M _ _ eq_refl B).
  - cbn [app length] in *. destruct m as [|m]; [lia|]. rewrite count_step. apply below_spec in H. rewrite H. f_equal. apply IH; [lia|].
    destruct M as [M|M]; [left; lia|now right].
Qed.
Lemma number_digits : forall base s v, number base s v -> Forall (digit_below base) s.
Proof. intros base s v H. induction H; [constructor|]. apply Forall_app. split; [assumption|]. constructor; [|constructor]. eexists; eauto. Qed.
Lemma ParseUint_spec : forall base bits s v, ParseUint base bits s = Some v <-> s <> [] /\ number base s v /\ v < 2 ^ bits.
Proof.
  intros base bits s v. unfold ParseUint. destruct s as [|c s]; [split; [discriminate|intros (H & _); congruence]|].
  rewrite <- digits_number. destruct (digits_value base 0 (c :: s)) as [w|].
  - destruct (w <? 2 ^ bits) eqn:L; [apply N.ltb_lt in L|apply N.ltb_ge in L].
    + split; [intros [= <-]; split; [discriminate|split; [reflexivity|exact L]]|]. intros (_ & [= <-] & _). reflexivity.
    + split; [discriminate|]. intros (_ & [= <-] & H). lia.
  - split; [discriminate|]. intros (_ & H & _). discriminate.
Qed.

(** ** Escapes *)
Lemma firstn_skipn_nonempty : forall A (s : list A) n, (1 <= n <= length s)%nat -> firstn n s <> [].
Proof. intros A [|a s] [|n] H Q; cbn in *; try lia; discriminate. Qed.
Lemma octal_first : forall c, in_range 48 (b2n c) 55 = true <-> digit_below 8 c.
Proof.
  intro c. rewrite <- below_spec. destruct c; vm_compute; split; congruence.
Qed.
Ltac char_eq H := apply beqb_spec in H; subst.
Lemma quote_digit : forall base q, quote q -> base <= 16 -> ~ digit_below base q.
Proof. intros base q Q B D. apply below_spec in D. unfold is_below in D. destruct Q as [-> | ->]; vm_compute in D; discriminate. Qed.
Lemma maximal_quote : forall base n ds body q rest, quote q -> base <= 16 -> maximal base n ds (body ++ q :: rest) <-> maximal base n ds body.
Proof.
  intros base n ds body q rest Q B. unfold maximal. split; intros (L & [M|M]); (split; [exact L|]); try (now left); right; intros c r E.
  - subst. apply (M c (r ++ q :: rest)). reflexivity.
  - destruct body as [|c' body]; cbn in E; injection E as E1 E2; subst c; [now apply quote_digit|]. now apply (M c' body).
Qed.
Lemma escape_sound : forall q s o body v rest, quote q -> escape s = Some (o, body ++ q :: rest) -> text false q body v ->
  exists body', s = body' ++ q :: rest /\ text false q (x5c :: body') (o ++ v).
Proof.
  intros q [|r t] o body v rest QT H T; [discriminate|]. unfold escape in H.
  destruct (existsb (beqb r) [x22; x27; x5c; x3f]) eqn:E1.
  { injection H as <- ->. exists (r :: body). split; [reflexivity|]. apply tx_escape; [|exact T]. apply existsb_exists in E1. destruct E1 as (c & I & Q). char_eq Q.
    destruct I as [<-|[<-|[<-|[<-|[]]]]]; cbn; auto 20. }
  repeat match type of H with
  | (if beqb r ?c then Some _ else _) = _ =>
      let Q := fresh "Q" in destruct (beqb r c) eqn:Q;
        [char_eq Q; injection H as <- ->; exists (c :: body); split; [reflexivity|]; apply tx_escape; [cbn; auto 20|exact T]|clear Q]
  end.
  destruct (in_range 48 (b2n r) 55) eqn:OC.
  { apply octal_first in OC. pose proof (count_spec 8 3 (r :: t)) as C. cbv zeta in C. set (n := count_digits 8 3 (r :: t)) in *.
    destruct C as (C1 & C2 & C3 & C4). destruct (ParseUint 8 8 (firstn n (r :: t))) as [w|] eqn:P; [|discriminate]. injection H as <- SK.
    apply ParseUint_spec in P. destruct P as (P1 & P2 & P3). exists (firstn n (r :: t) ++ body).
    split; [now rewrite <- app_assoc, <- SK, firstn_skipn|].
    apply tx_octal; [|exact P2|exact P3|exact T]. apply (maximal_quote 8 3 _ body q rest QT ltac:(lia)). rewrite <- SK. split.
    - rewrite firstn_length_le by exact C2. destruct n; [now destruct P1|lia].
    - rewrite firstn_length_le by exact C2. exact C4. }
  destruct (beqb r x78) eqn:HX.
  { char_eq HX. pose proof (count_spec 16 2 t) as C. cbv zeta in C. set (n := count_digits 16 2 t) in *.
    destruct C as (C1 & C2 & C3 & C4). destruct (ParseUint 16 8 (firstn n t)) as [w|] eqn:P; [|discriminate]. injection H as <- SK.
    apply ParseUint_spec in P. destruct P as (P1 & P2 & P3). exists (x78 :: firstn n t ++ body).
    split; [cbn [app]; now rewrite <- app_assoc, <- SK, firstn_skipn|].
    apply tx_hex; [now left| |exact P2|exact T]. apply (maximal_quote 16 2 _ body q rest QT ltac:(lia)). rewrite <- SK. split.
    - rewrite firstn_length_le by exact C2. destruct n; [now destruct P1|lia].
    - rewrite firstn_length_le by exact C2. exact C4. }
  destruct (beqb r x75 || beqb r x55) eqn:HU; [|discriminate].
  set (n := if beqb r x55 then 8%nat else 4%nat) in *.
  destruct (length t <? n)%nat eqn:L; [discriminate|]. apply Nat.ltb_ge in L.
  assert (LN : length (firstn n t) = n) by (now rewrite firstn_length_le).
  assert (UX : (r = x75 /\ length (firstn n t) = 4%nat) \/ (r = x55 /\ length (firstn n t) = 8%nat)).
  { rewrite LN. unfold n. destruct (beqb r x55) eqn:Q; [char_eq Q; now right|]. rewrite orb_false_r in HU. char_eq HU. now left. }
  destruct (ParseUint 16 32 (firstn n t)) as [w|] eqn:P; [|discriminate]. apply ParseUint_spec in P. destruct P as (P1 & P2 & P3).
  destruct (0x10FFFF <? w) eqn:M; [discriminate|]. apply N.ltb_ge in M.
  destruct (IsSurrogate w) eqn:SU.
  - unfold IsSurrogate in SU. apply in_range_spec in SU. destruct (skipn n t) as [|a [|b u]] eqn:SK; try discriminate.
    destruct (length u <? 4)%nat eqn:L4; [discriminate|]. apply Nat.ltb_ge in L4.
    destruct (ParseUint 16 16 (firstn 4 u)) as [w2|] eqn:P'; [|discriminate]. apply ParseUint_spec in P'. destruct P' as (P1' & P2' & P3').
    unfold DecodeSurrogates in H. destruct (in_range 0xD800 w 0xDBFF && in_range 0xDC00 w2 0xDFFF) eqn:DS; [|discriminate].
    apply andb_prop in DS. destruct DS as [D1 D2]. apply in_range_spec in D1, D2.
    destruct (beqb a x5c && beqb b x75) eqn:AB; [|discriminate]. apply andb_prop in AB. destruct AB as [Qa Qb]. char_eq Qa. char_eq Qb.
    injection H as <- SK4. change (skipn 4 u = body ++ q :: rest) in SK4. exists (r :: firstn n t ++ x5c :: x75 :: firstn 4 u ++ body).
    split. { rewrite <- (firstn_skipn n t) at 1. rewrite SK. rewrite <- (firstn_skipn 4 u) at 1. rewrite SK4. cbn [app]. rewrite <- !app_assoc. cbn [app]. now rewrite <- !app_assoc. }
    apply tx_surrogates with (hi := w - 0xD800) (lo := w2 - 0xDC00); try assumption; try lia.
    + now replace (0xD800 + (w - 0xD800)) with w by lia.
    + rewrite firstn_length_le; [reflexivity|exact L4].
    + now replace (0xDC00 + (w2 - 0xDC00)) with w2 by lia.
    + replace (0x10000 + (w - 0xD800) * 1024 + (w2 - 0xDC00)) with ((w - 0xD800) * 1024 + (w2 - 0xDC00) + 0x10000) by lia.
      apply encode_utf8; [lia|]. unfold surrogate. lia.
  - apply not_true_iff_false in SU. unfold IsSurrogate in SU. rewrite in_range_spec in SU. injection H as <- SK. exists (r :: firstn n t ++ body).
    split. { rewrite <- (firstn_skipn n t) at 1. rewrite SK. cbn [app]. now rewrite <- !app_assoc. }
    eapply tx_unicode; [exact UX|exact P2| |exact T]. apply encode_utf8; [lia|]. unfold surrogate. lia.
Qed.

Lemma not_simple : forall e, ~ In e (map fst simple_escapes) -> forall t,
  escape (e :: t) =
      if in_range 48 (b2n e) 55 then
        let n := count_digits 8 3 (e :: t) in
        match ParseUint 8 8 (firstn n (e :: t)) with Some v => Some ([n2b v], skipn n (e :: t)) | None => None end
      else if beqb e x78 then
        let n := count_digits 16 2 t in
        match ParseUint 16 8 (firstn n t) with Some v => Some ([n2b v], skipn n t) | None => None end
      else if beqb e x75 || beqb e x55 then
        let n := if beqb e x55 then 8%nat else 4%nat in
        if (length t <? n)%nat then None
        else match ParseUint 16 32 (firstn n t) with
        | None => None
        | Some v =>
            if 0x10FFFF <? v then None
            else let t := skipn n t in
            if IsSurrogate v then
              match t with
              | a :: b :: u =>
                  if (length u <? 4)%nat then None
                  else match ParseUint 16 16 (firstn 4 u) with
                  | None => None
                  | Some w =>
                      match DecodeSurrogates v w with
                      | None => None
                      | Some r => if beqb a x5c && beqb b x75 then Some (EncodeRune r, skipn 4 u) else None
                      end
                  end
              | _ => None
              end
            else Some (EncodeRune v, t)
        end
      else None.
Proof.
  intros e N t. unfold escape. assert (Q : forall c, In c (map fst simple_escapes) -> beqb e c = false).
  { intros c I. destruct (beqb e c) eqn:Q; [|reflexivity]. apply beqb_spec in Q. subst. contradiction. }
  cbn [existsb]. rewrite !Q by (cbn; auto 20). reflexivity.
Qed.
Lemma escape_simple : forall e c t, In (e, c) simple_escapes -> escape (e :: t) = Some ([c], t).
Proof. intros e c t I. cbn in I. repeat (destruct I as [I|I]; [injection I as <- <-; reflexivity|]). destruct I. Qed.
Lemma firstn_len : forall A (a b : list A), firstn (length a) (a ++ b) = a.
Proof. intros. rewrite firstn_app, Nat.sub_diag, firstn_all. cbn. apply app_nil_r. Qed.
Lemma skipn_len : forall A (a b : list A), skipn (length a) (a ++ b) = b.
Proof. intros. rewrite skipn_app, Nat.sub_diag, skipn_all. reflexivity. Qed.
Lemma escape_octal : forall ds n s, maximal 8 3 ds s -> number 8 ds n -> n < 256 -> escape (ds ++ s) = Some ([n2b n], s).
Proof.
  intros ds n s (L & M) N B. pose proof (number_digits _ _ _ N) as F. destruct ds as [|d ds]; [cbn in L; lia|].
  pose proof (count_unique 8 3 (d :: ds) s F (proj2 L) M) as C. cbn [app] in *. rewrite not_simple.
  - assert (D : in_range 48 (b2n d) 55 = true). { apply octal_first. now inversion F. }
    rewrite D, C. cbv zeta. change (d :: ds ++ s) with ((d :: ds) ++ s). rewrite firstn_len, skipn_len.
    rewrite (proj2 (ParseUint_spec 8 8 (d :: ds) n)); [reflexivity|]. split; [discriminate|]. split; [exact N|exact B].
  - assert (D : digit_below 8 d) by (now inversion F). apply octal_first, in_range_spec in D. intro I. cbn in I.
    repeat (destruct I as [<-|I]; [vm_compute in D; destruct D; congruence|]). destruct I.
Qed.
Lemma escape_hex : forall ds n s, maximal 16 2 ds s -> number 16 ds n -> escape (x78 :: ds ++ s) = Some ([n2b n], s).
Proof.
  intros ds n s (L & M) N. pose proof (number_digits _ _ _ N) as F. pose proof (number_bound _ _ _ N) as B.
  pose proof (count_unique 16 2 ds s F (proj2 L) M) as C. rewrite not_simple.
  - change (in_range 48 (b2n x78) 55) with false. cbv iota. change (beqb x78 x78) with true. cbv iota zeta.
    rewrite C, firstn_len, skipn_len. rewrite (proj2 (ParseUint_spec 16 8 ds n)); [reflexivity|].
    split; [intros ->; cbn in L; lia|]. split; [exact N|]. eapply N.lt_le_trans; [exact B|].
    change (2 ^ 8) with (16 ^ 2). apply N.pow_le_mono_r; lia.
  - intro I. cbn in I. repeat (destruct I as [I|I]; [discriminate I|]). destruct I.
Qed.
Lemma pow_16_8 : forall n, (n <= 8)%nat -> 16 ^ N.of_nat n <= 2 ^ 32.
Proof. intros n H. change (2 ^ 32) with (16 ^ 8). apply N.pow_le_mono_r; lia. Qed.
Lemma escape_u : forall x ds c t, (x = x75 /\ length ds = 4%nat) \/ (x = x55 /\ length ds = 8%nat) -> number 16 ds c -> c < 0x110000 ->
  escape (x :: ds ++ t) =
  if IsSurrogate c then
              match t with
              | a :: b :: u =>
                  if (length u <? 4)%nat then None
                  else match ParseUint 16 16 (firstn 4 u) with
                  | None => None
                  | Some w =>
                      match DecodeSurrogates c w with
                      | None => None
                      | Some r => if beqb a x5c && beqb b x75 then Some (EncodeRune r, skipn 4 u) else None
                      end
                  end
              | _ => None
              end
            else Some (EncodeRune c, t).
Proof.
  intros x ds c t X N LT. pose proof (number_bound _ _ _ N) as B.
  assert (LD : (length ds <= 8)%nat) by lia. pose proof (pow_16_8 _ LD) as PB.
  rewrite not_simple. 2:{ intro I. destruct X as [[-> _]|[-> _]]; cbn in I; repeat (destruct I as [I|I]; [discriminate I|]); destruct I. }
  assert (R1 : in_range 48 (b2n x) 55 = false) by (destruct X as [[-> _]|[-> _]]; reflexivity).
  assert (R2 : beqb x x78 = false) by (destruct X as [[-> _]|[-> _]]; reflexivity).
  assert (R3 : beqb x x75 || beqb x x55 = true) by (destruct X as [[-> _]|[-> _]]; reflexivity).
  assert (R4 : (if beqb x x55 then 8%nat else 4%nat) = length ds) by (destruct X as [[-> ->]|[-> ->]]; reflexivity).
  rewrite R1, R2, R3, R4. cbv zeta. rewrite firstn_len, skipn_len.
  rewrite (proj2 (Nat.ltb_ge _ _)) by (rewrite app_length; lia).
  rewrite (proj2 (ParseUint_spec 16 32 ds c)).
  - rewrite (proj2 (N.ltb_ge _ _)) by lia. reflexivity.
  - split; [intros ->; cbn in X; destruct X as [[_ X]|[_ X]]; discriminate|]. split; [exact N|lia].
Qed.
Lemma escape_unicode : forall x ds c u s, (x = x75 /\ length ds = 4%nat) \/ (x = x55 /\ length ds = 8%nat) ->
  number 16 ds c -> utf8 c u -> escape (x :: ds ++ s) = Some (u, s).
Proof.
  intros x ds c u s X N U. destruct (utf8_valid c u U) as (L & SU & _). rewrite (escape_u x ds c s X N L).
  unfold IsSurrogate. unfold surrogate in SU. rewrite range_false by lia. now rewrite (utf8_unique c u U).
Qed.
Lemma escape_surrogates : forall x ds hi es lo u s, (x = x75 /\ length ds = 4%nat) \/ (x = x55 /\ length ds = 8%nat) ->
  number 16 ds (0xD800 + hi) -> hi < 1024 -> length es = 4%nat -> number 16 es (0xDC00 + lo) -> lo < 1024 ->
  utf8 (0x10000 + hi * 1024 + lo) u -> escape (x :: ds ++ x5c :: x75 :: es ++ s) = Some (u, s).
Proof.
  intros x ds hi es lo u s X N H L4 N2 H2 U. rewrite (escape_u x ds _ _ X N) by lia.
  unfold IsSurrogate. rewrite (proj2 (in_range_spec _ _ _)) by lia. rewrite (proj2 (Nat.ltb_ge _ _)) by (rewrite app_length; lia).
  replace 4%nat with (length es). rewrite firstn_len, skipn_len.
  rewrite (proj2 (ParseUint_spec 16 16 es (0xDC00 + lo))).
  - unfold DecodeSurrogates. rewrite !(proj2 (in_range_spec _ _ _)) by lia. change (beqb x5c x5c && beqb x75 x75) with true. cbn [andb].
    rewrite (utf8_unique _ _ U). do 3 f_equal. lia.
  - split; [intros ->; discriminate|]. split; [exact N2|]. change (2 ^ 16) with 65536. lia.
Qed.

(** ** The loop *)
Definition plain (c : byte) : Prop := need_escape c = false.
Lemma plain_facts : forall c, plain c -> b2n c < 128 /\ b2n c <> 0 /\ b2n c <> 10 /\ b2n c <> 92 /\ b2n c <> 34 /\ b2n c <> 39.
Proof.
  intros c H. unfold plain, need_escape in H. apply orb_false_elim in H. destruct H as [H A1]. apply orb_false_elim in H. destruct H as [H A2].
  apply orb_false_elim in H. destruct H as [H A3]. apply orb_false_elim in H. destruct H as [A5 A4].
  apply N.leb_gt in A1. apply N.eqb_neq in A2, A3, A4. apply N.ltb_ge in A5. lia.
Qed.
Lemma run_plain : forall s, Forall plain (firstn (indexNeedEscape s) s).
Proof. induction s as [|c s IH]; [constructor|]. cbn. destruct (need_escape c) eqn:N; [constructor|]. constructor; [exact N|exact IH]. Qed.
Lemma utf8_plain : forall c, plain c -> utf8 (b2n c) [c].
Proof. intros c H. destruct (plain_facts c H) as [L _]. rewrite <- (n2b_b2n c) at 2. now constructor. Qed.
Lemma text_run : forall X q run s v, quote q -> Forall plain run -> text X q s v -> text X q (run ++ s) (run ++ v).
Proof.
  intros X q run s v Q F T. induction F as [|c run P F IH]; [exact T|].
  change ((c :: run) ++ s) with ([c] ++ run ++ s). change ((c :: run) ++ v) with ([c] ++ run ++ v).
  destruct (plain_facts c P) as (A1 & A2 & A3 & A4 & A5 & A6).
  apply tx_char with (c := b2n c); try assumption; [now apply utf8_plain|]. destruct Q as [-> | ->]; assumption.
Qed.
Lemma skipn_app_len : forall A (u r : list A) k, skipn (length u + k) (u ++ r) = skipn k r.
Proof. intros. rewrite skipn_app. rewrite skipn_all2 by lia. cbn. f_equal. lia. Qed.
Lemma firstn_app_len : forall A (u r : list A) k, firstn (length u + k) (u ++ r) = u ++ firstn k r.
Proof. intros. rewrite firstn_app. rewrite firstn_all2 by lia. do 2 f_equal. lia. Qed.

Lemma low_head : forall r u c, utf8 r (c :: u) -> r < 128 \/ b2n c < 128 -> u = [] /\ r = b2n c /\ r < 128.
Proof.
  intros r u c U H. assert (HD : forall k, 192 <= k < 256 -> b2n (n2b k) < 128 -> False) by (intros k K Q; rewrite b2n_small in Q; lia).
  inversion U as [a A|a b c' A B C D|a b d c' A B D C E SU|a b d e c' A B D E C F]; subst.
  - repeat split; try assumption. now rewrite b2n_small by lia.
  - destruct H as [H|H]; [lia|]. exfalso. apply (HD _) in H; [exact H|lia].
  - destruct H as [H|H]; [lia|]. exfalso. apply (HD _) in H; [exact H|lia].
  - destruct H as [H|H]; [lia|]. exfalso. apply (HD _) in H; [exact H|lia].
Qed.
Lemma utf8_cons : forall r u, utf8 r u -> exists c t, u = c :: t.
Proof. intros r u U. destruct U; eauto. Qed.
Lemma loop_sound : forall fuel q s out w, quote q -> string_loop fuel q s out = Some w ->
  exists body v rest, s = body ++ q :: rest /\ text false q body v /\ w = out ++ v.
Proof.
  induction fuel as [|fuel IH]; intros q s out w Q H; [discriminate|]. cbn [string_loop] in H. destruct s as [|a s0]; [discriminate|].
  destruct (DecodeRune (a :: s0)) as [[r n]|] eqn:D; [|discriminate]. destruct (decode_sound _ _ _ D) as (u & U & E & LN). set (rst := skipn n (a :: s0)) in E.
  destruct (utf8_cons _ _ U) as (a' & u' & Eu). rewrite Eu in E. cbn [app] in E. injection E as <- E.
  destruct ((r =? 0) || (r =? 10)) eqn:Z; [discriminate|]. apply orb_false_elim in Z. destruct Z as [Z1 Z2]. apply N.eqb_neq in Z1, Z2.
  destruct (r =? b2n q) eqn:RQ.
  - apply N.eqb_eq in RQ. injection H as <-. exists [], [], s0. split; [|split; [constructor|now rewrite app_nil_r]]. cbn. f_equal.
    assert (LQ : b2n q < 128) by (destruct Q as [-> | ->]; vm_compute; reflexivity).
    rewrite Eu in U. destruct (low_head r u' a U ltac:(lia)) as (_ & Ra & _). rewrite <- (n2b_b2n a), <- (n2b_b2n q). congruence.
  - apply N.eqb_neq in RQ. destruct (r =? 92) eqn:RB.
    + apply N.eqb_eq in RB. subst r. cbn [skipn] in H. destruct (escape s0) as [[o t]|] eqn:ES; [|discriminate].
      destruct (IH q t (out ++ o) w Q H) as (body & v & rest & E1 & T & E2). subst t.
      rewrite Eu in U. destruct (low_head _ _ _ U ltac:(lia)) as (_ & Ra & _).
      assert (A : a = x5c) by (rewrite <- (n2b_b2n a), <- Ra; reflexivity). subst a.
      destruct (escape_sound q s0 o body v rest Q ES T) as (body' & -> & T').
      exists (x5c :: body'), (o ++ v), rest. split; [reflexivity|]. split; [exact T'|]. now rewrite app_assoc.
    + apply N.eqb_neq in RB. cbv zeta in H.
      assert (ER : a :: s0 = u ++ rst) by (rewrite Eu; cbn [app]; now f_equal). rewrite ER, LN in H.
      rewrite skipn_len in H. rewrite skipn_app_len, firstn_app_len in H.
      destruct (IH q _ _ w Q H) as (body & v & rest & E1 & T & E2). set (i := indexNeedEscape rst) in *.
      exists (u ++ firstn i rst ++ body), (u ++ firstn i rst ++ v), rest. split; [|split].
      * rewrite ER. rewrite <- !app_assoc. f_equal. rewrite <- E1. symmetry. apply firstn_skipn.
      * apply tx_char with (c := r); try assumption. apply text_run; [exact Q|apply run_plain|exact T].
      * rewrite E2. now rewrite <- !app_assoc.
Qed.

Lemma text_head : forall q c b v, quote q -> plain c -> text false q (c :: b) v -> exists v', v = c :: v' /\ text false q b v'.
Proof.
  intros q c b v Q P T. destruct (plain_facts c P) as (A1 & A2 & A3 & A4 & A5 & A6).
  assert (NB : c <> x5c) by (intros ->; now apply A4).
  inversion T as [|r u s v' U N0 N10 N92 NQ T' E1 E2| | | | |]; subst; try (now contradict NB).
  destruct (utf8_cons _ _ U) as (c' & u' & ->). cbn [app] in E1. injection E1 as -> E1.
  destruct (low_head r u' c U ltac:(lia)) as (-> & _ & _). cbn [app] in E1. subst s. exists v'. split; [reflexivity|exact T'].
Qed.
Lemma quote_needs : forall q s, quote q -> indexNeedEscape (q :: s) = O.
Proof. intros q s [-> | ->]; reflexivity. Qed.
Lemma run_split : forall body q v rest, quote q -> text false q body v -> let s := body ++ q :: rest in let i := indexNeedEscape s in
  exists body' v', skipn i s = body' ++ q :: rest /\ v = firstn i s ++ v' /\ text false q body' v' /\ (length body' <= length body)%nat.
Proof.
  cbv zeta. induction body as [|c body IH]; intros q v rest Q T; cbn [app].
  - rewrite quote_needs by exact Q. exists [], v. repeat split; auto.
  - cbn [indexNeedEscape]. destruct (need_escape c) eqn:NE.
    + exists (c :: body), v. repeat split; auto.
    + destruct (text_head q c body v Q NE T) as (v1 & -> & T1). destruct (IH q v1 rest Q T1) as (b' & v' & E1 & E2 & T' & L).
      exists b', v'. cbn [skipn firstn]. split; [exact E1|]. split; [cbn; now f_equal|]. split; [exact T'|]. cbn. lia.
Qed.

Lemma loop_complete : forall fuel q body v rest out, quote q -> text false q body v -> (length body < fuel)%nat ->
  string_loop fuel q (body ++ q :: rest) out = Some (out ++ v).
Proof.
  induction fuel as [|fuel IH]; intros q body v rest out Q T L; [lia|].
  assert (LQ : b2n q < 128) by (destruct Q as [-> | ->]; vm_compute; reflexivity).
  assert (QZ : b2n q <> 0 /\ b2n q <> 10 /\ b2n q <> 92) by (destruct Q as [-> | ->]; repeat split; discriminate).
  assert (ESC : forall s o t, escape s = Some (o, t) -> string_loop (Datatypes.S fuel) q (x5c :: s) out = string_loop fuel q t (out ++ o)).
  { intros s o t E. cbn [string_loop]. change (x5c :: s) with ([x5c] ++ s). rewrite (decode_complete 92 [x5c] s) by (apply (utf8_1 92); lia).
    cbn [app]. change ((92 =? 0) || (92 =? 10)) with false. cbv iota. rewrite (proj2 (N.eqb_neq 92 (b2n q))) by lia. change (92 =? 92) with true. cbv iota.
    cbn [skipn]. now rewrite E. }
  destruct T as [|c u s v U N0 N10 N92 NQ T|e c s v I T|ds n s v M N B T|x ds n s v X M N T|x ds c u s v X N U T|x ds hi es lo u s v X N H L4 N2 H2 U T].
  - cbn [app string_loop]. change (q :: rest) with ([q] ++ rest). rewrite (decode_complete (b2n q) [q] rest).
    2:{ rewrite <- (n2b_b2n q) at 2. now constructor. }
    rewrite (proj2 (N.eqb_neq (b2n q) 0)) by tauto. rewrite (proj2 (N.eqb_neq (b2n q) 10)) by tauto. cbn [orb]. rewrite N.eqb_refl.
    cbn [app]. now rewrite app_nil_r.
  - rewrite <- app_assoc. cbn [string_loop]. destruct (utf8_cons _ _ U) as (a & u' & Eu). assert (NE : exists a r, u ++ s ++ q :: rest = a :: r) by (rewrite Eu; cbn; eauto).
    destruct NE as (a1 & r1 & NE). rewrite NE. rewrite <- NE. rewrite (decode_complete c u _ U).
    rewrite (proj2 (N.eqb_neq c 0)) by exact N0. rewrite (proj2 (N.eqb_neq c 10)) by exact N10. cbn [orb].
    rewrite (proj2 (N.eqb_neq _ _)) by exact NQ. rewrite (proj2 (N.eqb_neq _ _)) by exact N92. cbv zeta.
    rewrite skipn_len, skipn_app_len, firstn_app_len.
    destruct (run_split s q v rest Q T) as (b' & v' & E1 & E2 & T' & LE). rewrite E1, (IH q b' v' rest _ Q T').
    + rewrite E2. now rewrite <- !app_assoc.
    + rewrite Eu in L. cbn in L. rewrite app_length in L. lia.
  - cbn [app]. rewrite (ESC _ [c] (s ++ q :: rest)) by (now apply escape_simple). rewrite (IH q s v rest _ Q T) by (cbn in L; lia). now rewrite <- app_assoc.
  - cbn [app]. rewrite <- app_assoc. rewrite (ESC _ [n2b n] (s ++ q :: rest)).
    + rewrite (IH q s v rest _ Q T) by (cbn in L; rewrite app_length in L; lia). now rewrite <- app_assoc.
    + apply escape_octal; [|exact N|exact B]. apply maximal_quote; [exact Q|lia|exact M].
  - assert (x = x78) by (destruct X as [X|[X _]]; [exact X|discriminate]). subst x. cbn [app]. rewrite <- app_assoc.
    rewrite (ESC _ [n2b n] (s ++ q :: rest)).
    + rewrite (IH q s v rest _ Q T) by (cbn in L; rewrite app_length in L; lia). now rewrite <- app_assoc.
    + apply escape_hex; [|exact N]. apply maximal_quote; [exact Q|lia|exact M].
  - cbn [app]. rewrite <- app_assoc. rewrite (ESC _ u (s ++ q :: rest)).
    + rewrite (IH q s v rest _ Q T) by (cbn in L; rewrite app_length in L; lia). now rewrite <- app_assoc.
    + now apply escape_unicode with (c := c).
  - cbn [app]. rewrite <- app_assoc. cbn [app]. rewrite <- app_assoc. rewrite (ESC _ u (s ++ q :: rest)).
    + rewrite (IH q s v rest _ Q T) by (cbn in L; rewrite app_length in L; cbn in L; rewrite app_length in L; lia). now rewrite <- app_assoc.
    + now apply escape_surrogates with (hi := hi) (lo := lo).
Qed.

Lemma string_sound : forall q t w, quote q -> UnmarshalString (q :: t) = Some w ->
  exists body rest, t = body ++ q :: rest /\ text false q body w.
Proof.
  intros q t w Q H. cbn [UnmarshalString] in H. cbv zeta in H. set (i := indexNeedEscape t) in *.
  destruct (loop_sound _ q _ _ w Q H) as (body & v & rest & E & T & ->). exists (firstn i t ++ body), rest. split.
  - rewrite <- app_assoc, <- E. symmetry. apply firstn_skipn.
  - apply text_run; [exact Q|apply run_plain|exact T].
Qed.
Lemma string_complete : forall q body v rest, quote q -> text false q body v -> UnmarshalString (q :: body ++ q :: rest) = Some v.
Proof.
  intros q body v rest Q T. cbn [UnmarshalString]. cbv zeta. destruct (run_split body q v rest Q T) as (b' & v' & E1 & -> & T' & L).
  rewrite E1. apply loop_complete; [exact Q|exact T'|]. rewrite app_length. cbn. lia.
Qed.

(** ** Literals as the lexer takes them *)
Lemma enclosed_app : forall q u s, Forall (fun c => c <> q /\ c <> x5c) u -> enclosed q s -> enclosed q (u ++ s).
Proof. intros q u s F E. induction F as [|c u [A B] F IH]; [exact E|]. now constructor. Qed.
Lemma below_plain : forall base q c, quote q -> base <= 16 -> digit_below base c -> c <> q /\ c <> x5c.
Proof.
  intros base q c Q B D. split; intros ->; [now apply (quote_digit base q)|]. apply below_spec in D. unfold is_below in D. vm_compute in D. discriminate.
Qed.
Lemma number_plain : forall base q ds n, quote q -> base <= 16 -> number base ds n -> Forall (fun c => c <> q /\ c <> x5c) ds.
Proof. intros base q ds n Q B N. apply number_digits in N. eapply Forall_impl; [|exact N]. intros c D. now apply (below_plain base). Qed.
Lemma high_ne : forall k q, quote q -> 128 <= k < 256 -> n2b k <> q /\ n2b k <> x5c.
Proof.
  intros k q Q K. split; intro E; apply (f_equal b2n) in E; rewrite b2n_small in E by lia.
  - destruct Q as [-> | ->]; vm_compute in E; lia.
  - vm_compute in E. lia.
Qed.
Lemma utf8_ne : forall q c u, quote q -> utf8 c u -> c <> 92 -> c <> b2n q -> Forall (fun c => c <> q /\ c <> x5c) u.
Proof.
  intros q c u Q U N92 NQ. destruct U as [a A|a b c A B C D|a b d c A B D C E SU|a b d e c A B D E C F];
    repeat (apply Forall_cons; [|]); try apply Forall_nil; try (apply high_ne; [exact Q|lia]).
  split; intro E; [apply NQ; rewrite <- E; now rewrite b2n_small by lia|]. apply N92. apply (f_equal b2n) in E. rewrite b2n_small in E by lia. exact E.
Qed.
Lemma text_enclosed : forall q s v, quote q -> text false q s v -> enclosed q s.
Proof.
  intros q s v Q T. induction T as [|c u s v U N0 N10 N92 NQ T IH|e c s v I T IH|ds n s v M N B T IH|x ds n s v X M N T IH|x ds c u s v X N U T IH|x ds hi es lo u s v X N H L4 N2 H2 U T IH].
  - constructor.
  - apply enclosed_app; [now apply (utf8_ne q c)|exact IH].
  - now apply en_escape.
  - destruct ds as [|d ds]; [destruct M as [M _]; cbn in M; lia|]. cbn [app]. apply en_escape. apply enclosed_app; [|exact IH].
    pose proof (number_plain 8 q _ _ Q ltac:(lia) N) as F. now inversion F.
  - apply en_escape. apply enclosed_app; [|exact IH]. apply (number_plain 16 q _ n Q ltac:(lia) N).
  - apply en_escape. apply enclosed_app; [|exact IH]. apply (number_plain 16 q _ _ Q ltac:(lia) N).
  - apply en_escape. apply enclosed_app; [apply (number_plain 16 q _ _ Q ltac:(lia) N)|]. apply en_escape. apply enclosed_app; [|exact IH].
    apply (number_plain 16 q _ _ Q ltac:(lia) N2).
Qed.
Lemma enclosed_ends : forall q a, quote q -> enclosed q a -> forall b r1 r2, enclosed q b -> a ++ q :: r1 = b ++ q :: r2 -> a = b /\ r1 = r2.
Proof.
  intros q a Q E. assert (NQ : q <> x5c) by (destruct Q as [-> | ->]; discriminate).
  induction E as [|c s C1 C2 E IH|c s E IH]; intros b r1 r2 B H; inversion B as [|c' s' C1' C2' E'|c' s' E']; subst; cbn [app] in H.
  - injection H as ->. auto.
  - injection H as <- _. congruence.
  - injection H as -> _. congruence.
  - injection H as -> _. congruence.
  - injection H as <- H. destruct (IH s' r1 r2 E' H) as [-> ->]. auto.
  - injection H as -> _. congruence.
  - injection H as H _. congruence.
  - injection H as <- _. congruence.
  - injection H as <- H. destruct (IH s' r1 r2 E' H) as [-> ->]. auto.
Qed.
