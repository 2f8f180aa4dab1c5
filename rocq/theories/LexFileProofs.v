(** From files to texts, and what the regular expressions of comments and
    string literals mean: helper lemmas of C69, C75 and C76. *)
From Coq Require Import List ZArith NArith Bool Lia Init.Byte.
From Coq Require Import String.
From Verif Require Import Base StrLit StrLitSpec StrLitProofs.
From Verif Require Import AtnTable Atn LexSpec LexDfa LexProofs LexFile LexFileSpec.
Import ListNotations.
Import StringSyntax.
Local Open Scope string_scope.
Local Open Scope list_scope.
Open Scope Z_scope.

Lemma utf8_nonempty c u : utf8 c u -> u <> [].
Proof. destruct 1; discriminate. Qed.

Lemma read_decoded : forall fuel data, (length data <= fuel)%nat ->
  decoded data (read_runes fuel data).
Proof.
  induction fuel as [|fuel IH]; intros data L.
  - destruct data; [constructor | cbn in L; lia].
  - destruct data as [|b s]; [constructor|]. cbn [read_runes].
    destruct (DecodeRune (b :: s)) as [[r n]|] eqn:D.
    + destruct (decode_sound _ _ _ D) as (u & U & E & Ln).
      rewrite E at 1. constructor; auto. apply IH.
      assert (0 < n)%nat by (subst n; pose proof (utf8_nonempty _ _ U); destruct u; [congruence|cbn; lia]).
      rewrite skipn_length. lia.
    + constructor.
      * intros c u r U E. rewrite E, (decode_complete c u r U) in D. discriminate.
      * cbn [skipn]. apply IH. cbn in L. lia.
Qed.
Lemma ReadRunes_decoded data : decoded data (ReadRunes data).
Proof. apply read_decoded. lia. Qed.

Lemma decoded_unique data t1 : decoded data t1 -> forall t2, decoded data t2 -> t1 = t2.
Proof.
  induction 1 as [|c u s t U D IH|b s t B D IH]; intros t2 D2.
  - inversion D2 as [|c u s t U D E|]; auto.
    apply app_eq_nil in E as [E _]. exfalso. eapply utf8_nonempty; eauto.
  - inversion D2 as [E|c' u' s' t' U' D' E|b s' t' B D' E]; subst.
    + symmetry in E. apply app_eq_nil in E as [E _]. exfalso. eapply utf8_nonempty; eauto.
    + pose proof (decode_complete _ _ s U) as A. pose proof (decode_complete _ _ s' U') as B.
      rewrite E, A in B. injection B as <- Lu.
      assert (u' = u /\ s' = s) as [-> ->].
      { clear - E Lu. revert u' E Lu. induction u as [|x u IH]; intros [|y u'] E Lu; try discriminate; auto.
        cbn in *. injection E as -> E. destruct (IH u' E) as [-> ->]; auto. }
      f_equal. auto.
    + exfalso. eapply B; eauto.
  - inversion D2 as [E|c' u' s' t' U' D' E|b' s' t' B' D' E]; subst.
    + exfalso. eapply B; eauto.
    + f_equal. auto.
Qed.

Lemma utf8_char c u : utf8 c u -> is_char (Z.of_N c) /\ ~ surrogate c.
Proof.
  intros U. destruct (utf8_valid c u U) as (L & S & _). split; auto. unfold is_char. lia.
Qed.
Lemma decoded_text data t : decoded data t -> is_text t.
Proof.
  induction 1; constructor; auto; [eapply utf8_char; eauto | unfold is_char; lia].
Qed.
(* no character of a file is a surrogate *)
Lemma decoded_scalar data t : decoded data t -> Forall (fun c => ~ surrogate (Z.to_N c)) t.
Proof.
  induction 1; constructor; auto.
  - rewrite N2Z.id. eapply utf8_char; eauto.
  - unfold surrogate. cbn. lia.
Qed.

(* ---------- the lexer of the file ---------- *)
Lemma deserialized : deserialize serialized_lexer = Some lexer_atn.
Proof. vm_cast_no_check (eq_refl (Some lexer_atn)). Qed.
Lemma lex_lexer inp : lex inp = lex_with lexer_atn inp.
Proof. unfold lex. rewrite deserialized. reflexivity. Qed.

(* ---------- block comments ---------- *)
Lemma chr_inv c t : matches (chr c) t -> t = [c].
Proof.
  intros M. inversion M as [|l d E| | | | | |]; subst. cbn in E. rewrite orb_false_r in E.
  apply andb_prop in E as [A B]. apply Z.leb_le in A, B. f_equal. lia.
Qed.
Lemma chr_ok c : matches (chr c) [c].
Proof. constructor. cbn. rewrite !Z.leb_refl. reflexivity. Qed.

Lemma one_not l c : in_ranges l c = false -> is_char c -> matches (NoneOf l) [c].
Proof. intros. now constructor. Qed.
Lemma in_single c d : in_ranges [(c, c)] d = (c =? d).
Proof.
  cbn. rewrite orb_false_r. destruct (c =? d) eqn:E.
  - apply Z.eqb_eq in E. subst. now rewrite !Z.leb_refl.
  - apply Z.eqb_neq in E. destruct (c <=? d) eqn:A, (d <=? c) eqn:B; auto.
    apply Z.leb_le in A, B. lia.
Qed.
Lemma in_two b c d : in_ranges [(b, b); (c, c)] d = (b =? d) || (c =? d).
Proof.
  pose proof (in_single b d) as A. pose proof (in_single c d) as B.
  cbn in *. rewrite orb_false_r in *. rewrite A, B. reflexivity.
Qed.

(* no slash directly behind a star; [p]: there is a star before the text *)
Fixpoint clean (p : bool) (x : LexSpec.text) : bool :=
  match x with
  | [] => true
  | c :: x' => negb (p && (c =? slash)) && clean (c =? star) x'
  end.
Definition ends_star (p : bool) (x : LexSpec.text) : bool :=
  fold_left (fun _ c => c =? star) x p.
Lemma clean_app x y : forall p, clean p (x ++ y) = clean p x && clean (ends_star p x) y.
Proof.
  unfold ends_star. induction x as [|c x IH]; intros p; cbn; auto. rewrite IH.
  now rewrite andb_assoc.
Qed.
Lemma clean_without x : clean false x = true <-> without [star; slash] x.
Proof.
  split.
  - intros H a b ->. rewrite clean_app in H. apply andb_prop in H as [_ H].
    cbn in H. rewrite andb_false_r in H. discriminate.
  - intros H.
    assert (G : forall p, (p = true -> hd_error x <> Some slash) -> clean p x = true).
    { revert H. induction x as [|c x IH]; intros W p Hp; auto. cbn [clean].
      apply andb_true_intro. split.
      - destruct p; auto. cbn. destruct (c =? slash) eqn:E; auto. apply Z.eqb_eq in E.
        subst. exfalso. apply Hp; reflexivity.
      - apply IH.
        + intros a b ->. apply (W (c :: a) b). reflexivity.
        + intros E. apply Z.eqb_eq in E. subst c. intros Hd.
          destruct x as [|d x]; [discriminate|]. injection Hd as ->.
          apply (W [] x). reflexivity. }
    apply G. discriminate.
Qed.

Definition comment_part : re :=
  Or (NoneOf [(star, star)])
     (seqs [some (chr star); NoneOf [(star, star); (slash, slash)]]).

Lemma stars t : matches (some (chr star)) t <-> exists n, t = repeat star (S n).
Proof.
  split.
  - intros M. inversion M as [| | |? ? x y Hx Hy| | | |]; subst. apply chr_inv in Hx. subst.
    assert (exists n, y = repeat star n) as [n ->]; [|exists n; reflexivity].
    clear M. remember (Many (chr star)) as r eqn:E. induction Hy; try discriminate.
    + exists O. reflexivity.
    + injection E as ->. apply chr_inv in Hy1. subst. destruct (IHHy2 eq_refl) as [n ->].
      exists (S n). reflexivity.
  - intros [n ->]. change (repeat star (S n)) with ([star] ++ repeat star n). constructor.
    + apply chr_ok.
    + induction n; cbn; [constructor|]. change (star :: repeat star n) with ([star] ++ repeat star n).
      constructor; auto. apply chr_ok.
Qed.

Lemma stars_clean n : forall p, clean p (repeat star n) = true.
Proof. induction n; intros p; cbn; auto. rewrite andb_false_r. cbn. apply IHn. Qed.
Lemma stars_ends n p : ends_star p (repeat star (S n)) = true.
Proof. unfold ends_star. revert p. induction n; intros p; auto. exact (IHn true). Qed.

Lemma part_clean t : matches comment_part t ->
  clean false t = true /\ ends_star false t = false /\ is_text t.
Proof.
  intros M. inversion M as [| | | |? ? ? H|? ? ? H| |]; subst; clear M.
  - inversion H as [| |l c Hc E| | | | |]; subst. rewrite in_single in E. cbn.
    rewrite Z.eqb_sym, E. repeat constructor; apply Hc.
  - inversion H as [| | |? ? x y Hx Hy| | | |]; subst. apply stars in Hx as [n ->].
    inversion Hy as [| |l c Hc E| | | | |]; subst.
    rewrite in_two in E. apply orb_false_elim in E as [E1 E2].
    rewrite (Z.eqb_sym star), (Z.eqb_sym slash) in *.
    rewrite clean_app, stars_clean, stars_ends. cbn. rewrite E2. cbn.
    split; auto. split.
    + unfold ends_star. change (star :: repeat star n ++ [c]) with (repeat star (S n) ++ [c]).
      rewrite fold_left_app. cbn. exact E1.
    + apply (Forall_app is_char (repeat star (S n)) [c]). split; [|repeat constructor; apply Hc].
      apply (Forall_forall is_char). intros z Hz. apply (repeat_spec (S n)) in Hz. subst. unfold is_char, star. lia.
Qed.
Lemma parts_clean t : matches (Many comment_part) t ->
  clean false t = true /\ ends_star false t = false /\ is_text t.
Proof.
  intros M. remember (Many comment_part) as r eqn:E. induction M; try discriminate.
  - repeat constructor.
  - injection E as ->. destruct (part_clean _ M1) as (A1 & A2 & A3).
    destruct (IHM2 eq_refl) as (B1 & B2 & B3).
    rewrite clean_app, A1, A2, B1. split; auto. split; [|now apply Forall_app].
    unfold ends_star in *. rewrite fold_left_app, A2. exact B2.
Qed.

Lemma parts_of : forall n x, (length x <= n)%nat -> is_text x -> clean false (x ++ [star]) = true ->
  exists b m, x ++ [star] = b ++ repeat star (S m) /\ matches (Many comment_part) b.
Proof.
  induction n as [|n IH]; intros x L Ht C.
  - destruct x; [|cbn in L; lia]. exists [], O. split; [reflexivity|constructor].
  - destruct x as [|c x]; [exists [], O; split; [reflexivity|constructor]|].
    inversion Ht as [|? ? Hc Ht']; subst.
    destruct (Z.eq_dec c star) as [->|Nc].
    + (* a run of stars *)
      assert (R : exists k rest, star :: x = repeat star (S k) ++ rest /\ hd_error rest <> Some star).
      { clear. induction x as [|d x (k & rest & E & H)].
        - exists O, []. split; [reflexivity|discriminate].
        - destruct (Z.eq_dec d star) as [->|N].
          + exists (S k), rest. split; auto. change (star :: star :: x = star :: (repeat star (S k) ++ rest)).
            now rewrite <- E.
          + exists O, (d :: x). split; [reflexivity|]. cbn. congruence. }
      destruct R as (k & rest & E & H). destruct rest as [|d rest].
      * rewrite app_nil_r in E. exists [], (S k). split; [|constructor].
        cbn [app] in *. rewrite app_comm_cons, E. clear. induction k; [reflexivity|].
        cbn in *. now rewrite IHk.
      * assert (Nd : d <> star) by (intros ->; now apply H).
        rewrite E in L, Ht, C |- *.
        assert (Hd : is_char d /\ is_text rest).
        { apply Forall_app in Ht as [_ Ht]. inversion Ht; auto. }
        rewrite <- app_assoc, clean_app in C. apply andb_prop in C as [_ C].
        rewrite stars_ends in C. cbn in C. apply andb_prop in C as [C1 C2].
        apply negb_true_iff in C1.
        destruct (d =? star) eqn:Es; [apply Z.eqb_eq in Es; congruence|].
        destruct (IH rest) as (b & m & Eb & Mb); [|tauto|exact C2|].
        { rewrite app_length, repeat_length in L. cbn in L. lia. }
        exists ((repeat star (S k) ++ [d]) ++ b), m. split.
        { rewrite <- !app_assoc. cbn [app]. rewrite Eb. reflexivity. }
        constructor; auto. apply m_right. cbn [seqs]. constructor; [apply stars; eauto|].
        constructor; [tauto|]. rewrite in_two, (Z.eqb_sym star), (Z.eqb_sym slash), Es, C1. reflexivity.
    + cbn [app clean] in C. cbn in C. rewrite (proj2 (Z.eqb_neq c star) Nc) in C.
      destruct (IH x) as (b & m & Eb & Mb); [cbn in L; lia|auto|exact C|].
      exists ([c] ++ b), m. split; [cbn; now rewrite Eb|]. constructor; auto.
      apply m_left. constructor; auto. rewrite in_single, Z.eqb_sym. now apply Z.eqb_neq.
Qed.

Lemma block_comment_iff t : matches block_comment t <-> is_block_comment t.
Proof.
  unfold block_comment. fold comment_part. cbn [seqs]. split.
  - intros M. inversion M as [| | |? ? o y Ho Hy| | | |]; subst.
    inversion Hy as [| | |? ? b z Hb Hz| | | |]; subst.
    inversion Hz as [| | |? ? u v Hu Hv| | | |]; subst. clear M Hy Hz.
    inversion Ho as [| | |? ? o1 o2 Ho1 Ho2| | | |]; subst.
    apply chr_inv in Ho1, Ho2, Hv. subst. apply stars in Hu as [n ->].
    destruct (parts_clean _ Hb) as (A1 & A2 & A3).
    exists (b ++ repeat star n).
    assert (E : b ++ repeat star (S n) = (b ++ repeat star n) ++ [star]).
    { rewrite <- app_assoc. f_equal. clear. induction n; cbn in *; [reflexivity|]. now rewrite <- IHn. }
    split; [|split].
    + cbn [app]. do 2 f_equal. rewrite app_assoc, E, <- app_assoc. reflexivity.
    + apply Forall_app. split; auto. apply Forall_forall. intros z Hz. apply repeat_spec in Hz.
      subst. unfold is_char, star. lia.
    + apply clean_without. rewrite <- E, clean_app, A1, A2. apply stars_clean.
  - intros (x & -> & Ht & W). apply clean_without in W.
    destruct (parts_of (length x) x (le_n _) Ht W) as (b & m & E & Mb).
    apply m_seq; [apply (m_seq (chr slash) (chr star) [slash] [star]); apply chr_ok|].
    replace (x ++ [star; slash]) with (b ++ repeat star (S m) ++ [slash])
      by (rewrite app_assoc, <- E, <- app_assoc; reflexivity).
    constructor; auto. constructor; [apply stars; eauto | apply chr_ok].
Qed.

Lemma many_none l t : matches (Many (NoneOf l)) t <->
  Forall (fun c => is_char c /\ in_ranges l c = false) t.
Proof.
  split.
  - intros M. remember (Many (NoneOf l)) as r eqn:E. induction M; try discriminate; [constructor|].
    injection E as ->. apply Forall_app. split; [|exact (IHM2 eq_refl)].
    inversion M1; subst. constructor; auto.
  - induction 1 as [|c t [H1 H2] F IH]; [constructor|]. change (c :: t) with ([c] ++ t).
    constructor; auto. now constructor.
Qed.
Lemma many_one l t : matches (Many (OneOf l)) t <-> Forall (fun c => in_ranges l c = true) t.
Proof.
  split.
  - intros M. remember (Many (OneOf l)) as r eqn:E. induction M; try discriminate; [constructor|].
    injection E as ->. apply Forall_app. split; [|exact (IHM2 eq_refl)].
    inversion M1; subst. constructor; auto.
  - induction 1 as [|c t H F IH]; [constructor|]. change (c :: t) with ([c] ++ t).
    constructor; auto. now constructor.
Qed.

Lemma line_comment_iff t : matches line_comment t <-> is_line_comment t.
Proof.
  unfold line_comment. split.
  - intros M. inversion M as [| | |? ? o y Ho Hy| | | |]; subst.
    inversion Ho as [| | |? ? o1 o2 Ho1 Ho2| | | |]; subst. apply chr_inv in Ho1, Ho2. subst.
    apply many_none in Hy. exists y. split; auto. split.
    + eapply Forall_impl; [|exact Hy]. cbn. tauto.
    + rewrite Forall_forall in Hy. split; intros Hin; destruct (Hy _ Hin) as [_ E]; discriminate.
  - intros (x & -> & Ht & N1 & N2).
    apply m_seq; [apply (m_seq (chr slash) (chr slash) [slash] [slash]); apply chr_ok|].
    apply many_none. apply Forall_forall. intros c Hin. unfold is_text in Ht.
    rewrite Forall_forall in Ht. split; [auto|]. rewrite in_two.
    apply orb_false_intro; apply Z.eqb_neq; intros <-; auto.
Qed.

Lemma identifier_iff t : matches identifier t <-> is_word t.
Proof.
  unfold identifier. split.
  - intros M. inversion M as [| | |? ? o y Ho Hy| | | |]; subst. apply many_one in Hy.
    inversion Ho as [|l c E| | | | | |]; subst. exists c, y. auto.
  - intros (c & x & -> & H & F). change (c :: x) with ([c] ++ x). constructor.
    + now constructor.
    + now apply many_one.
Qed.

(* ---------- string literals ---------- *)
Lemma below128 (P : Z -> bool) : forallb P (map Z.of_nat (seq 0 128)) = true ->
  forall c, 0 <= c < 128 -> P c = true.
Proof.
  intros H c Hc. rewrite forallb_forall in H. apply H. apply in_map_iff.
  exists (Z.to_nat c). split; [lia|]. apply in_seq. lia.
Qed.

Lemma GetText_app a b : GetText (a ++ b) = GetText a ++ GetText b.
Proof. unfold GetText. apply flat_map_app. Qed.
Lemma GetText_ascii c : 0 <= c < 128 -> GetText [c] = [n2b (Z.to_N c)].
Proof.
  intros H. unfold GetText. cbn. rewrite app_nil_r. unfold EncodeRune.
  rewrite (proj2 (N.ltb_lt _ _)) by lia. reflexivity.
Qed.

Definition char_value (q : Z) : re :=
  Or escape (NoneOf [(0, 0); (newline, newline); (backslash, backslash); (q, q)]).
Definition quote_pair (q : Z) (b : byte) : Prop := (q = dquote /\ b = x22) \/ (q = squote /\ b = x27).

Lemma one_inv l t : matches (OneOf l) t -> exists c, t = [c] /\ in_ranges l c = true.
Proof. intros M. inversion M; subst. eauto. Qed.
Lemma seq_inv r s t : matches (Seq r s) t -> exists x y, t = x ++ y /\ matches r x /\ matches s y.
Proof. intros M. inversion M; subst. eauto. Qed.

(* characters of ranges below 128, checked one by one *)
Lemma ranges_below l : forallb (fun r => (0 <=? fst r) && (snd r <? 128)) l = true ->
  forall c, in_ranges l c = true -> 0 <= c < 128.
Proof.
  intros H c Hc. apply existsb_exists in Hc as (r & Hr & E). rewrite forallb_forall in H.
  specialize (H r Hr). apply andb_prop in H as [A B]. apply andb_prop in E as [C D].
  apply Z.leb_le in A, C, D. apply Z.ltb_lt in B. lia.
Qed.
Ltac ascii_range H :=
  match type of H with in_ranges ?l ?c = true =>
    let R := fresh "R" in
    assert (R : 0 <= c < 128) by (apply (ranges_below l); [vm_compute; reflexivity | exact H])
  end.

Definition digit_ok (base : N) (c : Z) : bool :=
  match digit_value (n2b (Z.to_N c)) with Some d => (d <? base)%N | None => false end.
Lemma hex_ok c : in_ranges [range "0" "9"; range "A" "F"; range "a" "f"] c = true -> digit_ok 16 c = true.
Proof.
  intros H. ascii_range H.
  pose proof (below128 (fun c => negb (in_ranges [range "0" "9"; range "A" "F"; range "a" "f"] c) || digit_ok 16 c)) as P.
  specialize (P ltac:(vm_compute; reflexivity) c R). cbv beta in P. rewrite H in P. exact P.
Qed.
Lemma oct_ok c : in_ranges [range "0" "7"] c = true -> digit_ok 8 c = true.
Proof.
  intros H. ascii_range H.
  pose proof (below128 (fun c => negb (in_ranges [range "0" "7"] c) || digit_ok 8 c)) as P.
  specialize (P ltac:(vm_compute; reflexivity) c R). cbv beta in P. rewrite H in P. exact P.
Qed.
Lemma count_ok base : forall l, forallb (digit_ok base) l = true ->
  count_digits base (length l) (map (fun c => n2b (Z.to_N c)) l) = length l.
Proof.
  induction l as [|c l IH]; cbn; auto. intros H. apply andb_prop in H as [H1 H2].
  unfold digit_ok in H1. destruct (digit_value _) as [d|]; [|discriminate]. rewrite H1.
  now rewrite IH.
Qed.

Lemma char_lexed q b t : quote_pair q b -> matches (char_value q) t ->
  Forall (fun c => ~ surrogate (Z.to_N c)) t -> forall s, lexed b s -> lexed b (GetText t ++ s).
Proof.
  intros Q M Sc s L. unfold char_value in M. apply or_iff in M as [M|M].
  - unfold escape in M. cbn [ors seqs] in M. apply or_iff in M as [M|M]; [|apply or_iff in M as [M|M]].
    + apply seq_inv in M as (x1 & y1 & -> & M1 & M). apply chr_inv in M1. subst x1.
      apply seq_inv in M as (x2 & y2 & -> & M2 & M). apply one_inv in M2 as (c2 & -> & E2).
      apply seq_inv in M as (x3 & y3 & -> & M3 & M4).
      apply one_inv in M3 as (c3 & -> & E3). apply one_inv in M4 as (c4 & -> & E4).
      pose proof (hex_ok _ E3) as O3. pose proof (hex_ok _ E4) as O4.
      ascii_range E2. ascii_range E3. ascii_range E4.
      rewrite !GetText_app, !GetText_ascii by (auto; unfold backslash; lia). cbn [app].
      change (n2b (Z.to_N backslash)) with x5c. apply lx_hex; auto.
      * assert (c2 = 120 \/ c2 = 88) as [->| ->].
        { change (in_ranges [(120, 120); (88, 88)] c2 = true) in E2. rewrite in_two in E2.
          apply orb_prop in E2 as [E2|E2]; apply Z.eqb_eq in E2; auto. }
        -- left. reflexivity.
        -- right. reflexivity.
      * apply (count_ok 16 [c3; c4]). cbn. now rewrite O3, O4.
    + apply seq_inv in M as (x1 & y1 & -> & M1 & M). apply chr_inv in M1. subst x1.
      apply seq_inv in M as (x2 & y2 & -> & M2 & M). apply one_inv in M2 as (c2 & -> & E2).
      apply seq_inv in M as (x3 & y3 & -> & M3 & M4).
      apply one_inv in M3 as (c3 & -> & E3). apply one_inv in M4 as (c4 & -> & E4).
      pose proof (oct_ok _ E2) as O2. pose proof (oct_ok _ E3) as O3. pose proof (oct_ok _ E4) as O4.
      ascii_range E2. ascii_range E3. ascii_range E4.
      rewrite !GetText_app, !GetText_ascii by (auto; unfold backslash; lia). cbn [app].
      change (n2b (Z.to_N backslash)) with x5c. apply lx_oct; auto.
      apply (count_ok 8 [c2; c3; c4]). cbn. now rewrite O2, O3, O4.
    + apply seq_inv in M as (x1 & y1 & -> & M1 & M). apply chr_inv in M1. subst x1.
      apply one_inv in M as (c2 & -> & E2). ascii_range E2.
      rewrite !GetText_app, !GetText_ascii by (auto; unfold backslash; lia). cbn [app].
      change (n2b (Z.to_N backslash)) with x5c. apply lx_escape; auto.
      pose proof (below128 (fun c => negb (in_ranges (map (fun c => (c, c))
        (str "abfnrtv" ++ [backslash; squote; dquote])) c)
        || existsb (Byte.eqb (n2b (Z.to_N c))) [x61; x62; x66; x6e; x72; x74; x76; x5c; x27; x22])) as P.
      specialize (P ltac:(vm_compute; reflexivity) c2 R). cbv beta in P. rewrite E2 in P. cbn [negb orb] in P.
      apply existsb_exists in P as (y & Hy & Ey).
      apply Byte.byte_dec_bl in Ey. rewrite Ey. exact Hy.
  - inversion M as [| |l c Hc E| | | | |]; subst. inversion Sc as [|? ? S0 _]; subst.
    assert (E' : (0 =? c) = false /\ (newline =? c) = false /\ (backslash =? c) = false /\ (q =? c) = false).
    { pose proof (in_single 0 c) as A0. pose proof (in_single newline c) as A1.
      pose proof (in_single backslash c) as A2. pose proof (in_single q c) as A3.
      cbn in E, A0, A1, A2, A3. rewrite orb_false_r in *. rewrite A0, A1, A2, A3 in E.
      repeat (apply orb_false_elim in E as [? E]). auto. }
    destruct E' as (N0 & N1 & N2 & N3). apply Z.eqb_neq in N0, N1, N2, N3.
    unfold newline, backslash, is_char in *.
    unfold GetText. cbn [flat_map app]. rewrite app_nil_r. apply lx_char; auto; try lia.
    + unfold IsSurrogate. apply not_true_iff_false. rewrite in_range_spec. unfold surrogate in S0. lia.
    + destruct Q as [[-> ->]|[-> ->]]; unfold dquote, squote in *;
        [change (b2n x22) with 34%N | change (b2n x27) with 39%N]; lia.
Qed.

Lemma chars_lexed q b t : quote_pair q b -> matches (Many (char_value q)) t ->
  Forall (fun c => ~ surrogate (Z.to_N c)) t -> lexed b (GetText t).
Proof.
  intros Q M. remember (Many (char_value q)) as r eqn:E. induction M; try discriminate; intros Sc.
  - constructor.
  - injection E as ->. apply Forall_app in Sc as [S1 S2]. rewrite GetText_app.
    eapply char_lexed; eauto.
Qed.

Lemma quoted_lexed q b t : quote_pair q b -> matches (quoted q) t ->
  Forall (fun c => ~ surrogate (Z.to_N c)) t -> exists s, GetText t = b :: s ++ [b] /\ lexed b s.
Proof.
  intros Q M Sc. unfold quoted in M. fold (char_value q) in M. cbn [seqs] in M.
  apply seq_inv in M as (x1 & y1 & -> & M1 & M). apply chr_inv in M1. subst x1.
  apply seq_inv in M as (x2 & y2 & -> & M2 & M3). apply chr_inv in M3. subst y2.
  exists (GetText x2).
  assert (B : GetText [q] = [b]) by (destruct Q as [[-> ->]|[-> ->]]; vm_compute; reflexivity).
  split; [rewrite !GetText_app, B; reflexivity|].
  apply Forall_app in Sc as [_ Sc]. apply Forall_app in Sc as [Sc _].
  eapply chars_lexed; eauto.
Qed.

Definition zc (b : byte) : Z := Z.of_N (b2n b).
Lemma all_bytes (P : byte -> bool) :
  forallb (fun n => match Byte.of_N (N.of_nat n) with Some b => P b | None => false end) (seq 0 256) = true ->
  forall b, P b = true.
Proof.
  intros H b. rewrite forallb_forall in H.
  specialize (H (N.to_nat (Byte.to_N b))). cbv beta in H. rewrite N2Nat.id, Byte.of_to_N in H.
  apply H. apply in_seq. pose proof (Byte.to_N_bounded b). lia.
Qed.
Lemma hex_byte d : digit_value d <> None ->
  in_ranges [range "0" "9"; range "A" "F"; range "a" "f"] (zc d) = true /\ zc d < 128.
Proof.
  intros H.
  pose proof (all_bytes (fun d => match digit_value d with
    | None => true
    | Some _ => in_ranges [range "0" "9"; range "A" "F"; range "a" "f"] (zc d) && (zc d <? 128) end)
    ltac:(vm_compute; reflexivity) d) as P. cbv beta in P.
  destruct (digit_value d); [|congruence]. apply andb_prop in P as [A B]. apply Z.ltb_lt in B. auto.
Qed.
Lemma oct_byte d v : digit_value d = Some v -> (v < 8)%N ->
  in_ranges [range "0" "7"] (zc d) = true /\ zc d < 128.
Proof.
  intros H L.
  pose proof (all_bytes (fun d => match digit_value d with
    | None => true
    | Some v => negb (v <? 8)%N || in_ranges [range "0" "7"] (zc d) && (zc d <? 128) end)
    ltac:(vm_compute; reflexivity) d) as P. cbv beta in P. rewrite H in P.
  apply N.ltb_lt in L. rewrite L in P. cbn [negb orb] in P.
  apply andb_prop in P as [A B]. apply Z.ltb_lt in B. auto.
Qed.
Lemma count_all base : forall l n, count_digits base n l = length l ->
  Forall (fun d => exists v, digit_value d = Some v /\ (v < base)%N) l.
Proof.
  induction l as [|d l IH]; intros n H; [constructor|].
  destruct n as [|n]; [discriminate|]. cbn in H.
  destruct (digit_value d) as [v|] eqn:D; [|discriminate].
  destruct (v <? base)%N eqn:E; [|discriminate]. injection H as H. apply N.ltb_lt in E.
  constructor; eauto.
Qed.

Lemma n2b_b2n b : n2b (b2n b) = b.
Proof.
  unfold n2b, b2n. pose proof (Byte.to_N_bounded b). rewrite N.mod_small by lia.
  now rewrite Byte.of_to_N.
Qed.
Definition decodes (s : bytes) (t : LexSpec.text) : Prop :=
  forall rest t', decoded rest t' -> decoded (s ++ rest) (t ++ t').
Lemma decodes_app s t s' t' : decodes s t -> decodes s' t' -> decodes (s ++ s') (t ++ t').
Proof. intros A B r u D. rewrite <- !app_assoc. apply A, B, D. Qed.
Lemma decodes_ascii b : zc b < 128 -> decodes [b] [zc b].
Proof.
  intros H r u D. cbn. unfold zc in *.
  change (b :: r) with ([b] ++ r). rewrite <- (n2b_b2n b) at 1.
  apply dec_char; auto. constructor. lia.
Qed.
Lemma GetText_zc b : zc b < 128 -> GetText [zc b] = [b].
Proof.
  intros H. unfold zc in *. rewrite GetText_ascii by lia. rewrite N2Z.id. f_equal. apply n2b_b2n.
Qed.

Lemma one_ok l c : in_ranges l c = true -> matches (OneOf l) [c].
Proof. intros. now constructor. Qed.

Lemma lexed_chars q b s : quote_pair q b -> lexed b s ->
  exists t, matches (Many (char_value q)) t /\ GetText t = s /\ decodes s t.
Proof.
  intros Q. induction 1 as [|c s C SU N0 N10 N92 NQ L (t & M & G & D)
    |x d e s X C L (t & M & G & D)|d e f s C L (t & M & G & D)|c s I L (t & M & G & D)].
  - exists []. split; [constructor|]. split; [reflexivity|]. intros r u D. exact D.
  - exists ([Z.of_N c] ++ t).
    unfold IsSurrogate in SU. apply not_true_iff_false in SU. rewrite in_range_spec in SU.
    split; [|split].
    + constructor; auto. apply m_right. constructor; [unfold is_char; lia|].
      assert (F : forall z, z <> Z.of_N c -> in_ranges [(z, z)] (Z.of_N c) = false)
        by (intros z Hz; rewrite in_single; now apply Z.eqb_neq).
      assert (NQ' : q <> Z.of_N c).
      { destruct Q as [[-> ->]|[-> ->]]; unfold dquote, squote;
          [change (b2n x22) with 34%N in NQ | change (b2n x27) with 39%N in NQ]; lia. }
      pose proof (F 0 ltac:(lia)) as F0. pose proof (F newline ltac:(unfold newline; lia)) as F1.
      pose proof (F backslash ltac:(unfold backslash; lia)) as F2. pose proof (F q NQ') as F3.
      unfold in_ranges in *. cbn [existsb] in *. rewrite !orb_false_r in *.
      rewrite F0, F1, F2, F3. reflexivity.
    + rewrite GetText_app, G. unfold GetText. cbn. rewrite N2Z.id, app_nil_r. reflexivity.
    + apply decodes_app; auto. intros r u Dr. cbn. apply dec_char; auto.
      apply encode_utf8; auto. unfold surrogate. lia.
  - pose proof (count_all 16 [d; e] 2 C) as F. inversion F as [|? ? (v1 & D1 & _) F']; subst.
    inversion F' as [|? ? (v2 & D2 & _) _]; subst.
    destruct (hex_byte d ltac:(congruence)) as [R1 L1]. destruct (hex_byte e ltac:(congruence)) as [R2 L2].
    assert (Lx : zc x < 128) by (destruct X as [->| ->]; reflexivity).
    assert (L5 : zc x5c < 128) by reflexivity.
    exists (([zc x5c] ++ [zc x] ++ [zc d] ++ [zc e]) ++ t). split; [|split].
    + constructor; auto. apply m_left. apply m_left. cbn [seqs].
      constructor; [apply chr_ok|]. constructor; [|constructor; now apply one_ok].
      apply one_ok. destruct X as [->| ->]; vm_compute; reflexivity.
    + rewrite !GetText_app, !GetText_zc by auto. reflexivity.
    + change (x5c :: x :: d :: e :: GetText t) with (([x5c] ++ [x] ++ [d] ++ [e]) ++ GetText t).
      repeat apply decodes_app; auto; now apply decodes_ascii.
  - pose proof (count_all 8 [d; e; f] 3 C) as F. inversion F as [|? ? (v1 & D1 & B1) F']; subst.
    inversion F' as [|? ? (v2 & D2 & B2) F'']; subst. inversion F'' as [|? ? (v3 & D3 & B3) _]; subst.
    destruct (oct_byte d _ D1 B1) as [R1 L1]. destruct (oct_byte e _ D2 B2) as [R2 L2].
    destruct (oct_byte f _ D3 B3) as [R3 L3].
    assert (L5 : zc x5c < 128) by reflexivity.
    exists (([zc x5c] ++ [zc d] ++ [zc e] ++ [zc f]) ++ t). split; [|split].
    + constructor; auto. apply m_left. apply m_right. apply m_left. cbn [seqs].
      constructor; [apply chr_ok|]. constructor; [now apply one_ok|]. constructor; now apply one_ok.
    + rewrite !GetText_app, !GetText_zc by auto. reflexivity.
    + change (x5c :: d :: e :: f :: GetText t) with (([x5c] ++ [d] ++ [e] ++ [f]) ++ GetText t).
      repeat apply decodes_app; auto; now apply decodes_ascii.
  - assert (L5 : zc x5c < 128) by reflexivity.
    assert (K : in_ranges (map (fun c => (c, c)) (str "abfnrtv" ++ [backslash; squote; dquote])) (zc c) = true
                /\ zc c < 128).
    { clear - I. cbn in I. repeat (destruct I as [<-|I]; [split; vm_compute; reflexivity|]). destruct I. }
    destruct K as [K Lc].
    exists (([zc x5c] ++ [zc c]) ++ t). split; [|split].
    + constructor; auto. apply m_left. apply m_right. apply m_right.
      constructor; [apply chr_ok | now apply one_ok].
    + rewrite !GetText_app, !GetText_zc by auto. subst s. reflexivity.
    + change (x5c :: c :: s) with (([x5c] ++ [c]) ++ s).
      repeat apply decodes_app; auto; now apply decodes_ascii.
Qed.

Lemma lexed_quoted q b s : quote_pair q b -> lexed b s ->
  exists t, matches (quoted q) t /\ GetText t = b :: s ++ [b] /\ decodes (b :: s ++ [b]) t.
Proof.
  intros Q L. destruct (lexed_chars q b s Q L) as (t & M & G & D).
  assert (B : GetText [q] = [b] /\ decodes [b] [q]).
  { destruct Q as [[-> ->]|[-> ->]]; (split; [vm_compute; reflexivity|]).
    - apply (decodes_ascii x22). reflexivity.
    - apply (decodes_ascii x27). reflexivity. }
  destruct B as [B1 B2].
  exists ([q] ++ t ++ [q]). split; [|split].
  - unfold quoted. fold (char_value q). cbn [seqs]. constructor; [apply chr_ok|].
    constructor; auto. apply chr_ok.
  - rewrite !GetText_app, B1, G. reflexivity.
  - change (b :: s ++ [b]) with ([b] ++ s ++ [b]). repeat apply decodes_app; auto.
Qed.
