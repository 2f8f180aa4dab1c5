(** Facts about Go strings. *)
From Coq Require Import Strings.String Init.Byte Lia ZifyBool ZifyNat ZifyN.
From Verif Require Import Base WireProofs GoStr.
Import StringSyntax.
Open Scope N_scope.

Lemma beqb_spec : forall a b, reflect (a = b) (beqb a b).
Proof.
  intros. unfold beqb. destruct (N.eqb_spec (b2n a) (b2n b)) as [H|H]; constructor.
  - apply b2n_inj, H.
  - intro Q. subst. auto.
Qed.
Lemma beqb_refl : forall a, beqb a a = true.
Proof. intro a. unfold beqb. apply N.eqb_refl. Qed.
Lemma str_eqb_spec : forall a b, reflect (a = b) (str_eqb a b).
Proof.
  induction a as [|x a IH]; intros [|y b]; cbn [str_eqb]; try (constructor; congruence).
  destruct (beqb_spec x y) as [Q|Q]; cbn [andb]; [subst|constructor; congruence].
  destruct (IH b) as [Q|Q]; constructor; congruence.
Qed.
Lemma str_eqb_refl : forall a, str_eqb a a = true.
Proof. intro a. destruct (str_eqb_spec a a); congruence. Qed.
Lemma str_eqb_ne : forall a b, a <> b -> str_eqb a b = false.
Proof. intros a b H. destruct (str_eqb_spec a b); congruence. Qed.

(** ** Split *)
Lemma Split_ne : forall c s, Split c s <> [].
Proof.
  intros c [|x s]; cbn [Split]; [discriminate|]. destruct (beqb x c); [discriminate|].
  destruct (Split c s); discriminate.
Qed.
Lemma Split_app : forall c a b, Split c (a ++ c :: b) = Split c a ++ Split c b.
Proof.
  intros c a b. induction a as [|x a IH]; cbn [app Split].
  - now rewrite beqb_refl.
  - destruct (beqb x c); rewrite IH; [reflexivity|].
    pose proof (Split_ne c a). destruct (Split c a); cbn [app]; [congruence|reflexivity].
Qed.
Lemma Split_none : forall c s, ~ In c s -> Split c s = [s].
Proof.
  intros c s. induction s as [|x s IH]; intro H; cbn [Split]; [reflexivity|].
  destruct (beqb_spec x c) as [Q|Q]; [subst; destruct H; now left|].
  rewrite IH; [reflexivity|]. intro K. apply H. now right.
Qed.

(** Parts joined by a separator. *)
Fixpoint join (sep : byte) (l : list bytes) : bytes :=
  match l with
  | [] => []
  | [s] => s
  | s :: r => s ++ sep :: join sep r
  end.
Lemma Split_join : forall c l last, Forall (fun s => ~ In c s) l ->
  Split c (join c (l ++ [last])) = l ++ Split c last.
Proof.
  intros c l last F. induction F as [|s l H F IH]; [reflexivity|].
  replace (join c ((s :: l) ++ [last])) with (s ++ c :: join c (l ++ [last]))
    by (cbn [app join]; destruct l; reflexivity).
  rewrite Split_app, IH, Split_none by assumption. reflexivity.
Qed.

(** ** TrimSpace *)
Definition plain_char (c : byte) : Prop := 32 < b2n c < 127.

Lemma space1_plain : forall c, plain_char c -> space1 (b2n c) = false.
Proof. unfold plain_char, space1. intros. lia. Qed.
Lemma space2_plain : forall c b, plain_char c -> space2 (b2n c) b = false.
Proof. unfold plain_char, space2. intros. lia. Qed.
Lemma space3_plain1 : forall c a b, plain_char c -> space3 (b2n c) a b = false.
Proof. unfold plain_char, space3. intros. lia. Qed.
Lemma space2_plain2 : forall c b, plain_char c -> space2 b (b2n c) = false.
Proof. unfold plain_char, space2. intros. lia. Qed.
Lemma space3_plain2 : forall c a b, plain_char c -> space3 a (b2n c) b = false.
Proof. unfold plain_char, space3. intros. lia. Qed.
Lemma space3_plain3 : forall c a b, plain_char c -> space3 a b (b2n c) = false.
Proof. unfold plain_char, space3. intros. lia. Qed.

Lemma space_left_plain : forall c s, plain_char c -> space_left (c :: s) = 0%nat.
Proof.
  intros c s H. cbn [space_left]. rewrite space1_plain by assumption.
  destruct s as [|b s]; [reflexivity|]. rewrite space2_plain by assumption.
  destruct s as [|d s]; [reflexivity|]. now rewrite space3_plain1 by assumption.
Qed.
Lemma space_right_plain : forall c s, plain_char c -> space_right (c :: s) = 0%nat.
Proof.
  intros c s H. cbn [space_right]. rewrite space1_plain by assumption.
  destruct s as [|b s]; [reflexivity|]. rewrite space2_plain2 by assumption.
  destruct s as [|d s]; [reflexivity|]. now rewrite space3_plain3 by assumption.
Qed.

Lemma strip_zero : forall sp k s, sp s = 0%nat -> strip sp k s = s.
Proof. intros sp [|k] s H; cbn [strip]; [reflexivity|]. now rewrite H. Qed.

(** Trimming on the right stops at a plain character. *)
Lemma space_right_step : forall u c w, plain_char c ->
  exists u', skipn (space_right (u ++ c :: w)) (u ++ c :: w) = u' ++ c :: w /\
             (space_right (u ++ c :: w) = 0%nat \/ (length u' < length u)%nat).
Proof.
  intros u c w H.
  destruct u as [|a [|b [|d u]]]; cbn [app].
  - rewrite space_right_plain by assumption. exists []. auto.
  - cbn [space_right]. destruct (space1 (b2n a)); [exists []; cbn; auto with arith|].
    rewrite space2_plain by assumption.
    destruct w as [|e w].
    + exists [a]. cbn. auto.
    + rewrite space3_plain2 by assumption. exists [a]. cbn. auto.
  - cbn [space_right]. destruct (space1 (b2n a)); [exists [b]; cbn; auto with arith|].
    destruct (space2 (b2n b) (b2n a)); [exists []; cbn; auto with arith|].
    rewrite space3_plain1 by assumption. exists [a; b]. cbn. auto.
  - cbn [space_right]. destruct (space1 (b2n a)); [exists (b :: d :: u); cbn; auto with arith|].
    destruct (space2 (b2n b) (b2n a)); [exists (d :: u); cbn; auto with arith|].
    destruct (space3 (b2n d) (b2n b) (b2n a)); [exists u; cbn; auto with arith|].
    exists (a :: b :: d :: u). cbn. auto.
Qed.
Lemma strip_right_stop : forall c w k u, plain_char c ->
  exists u', strip space_right k (u ++ c :: w) = u' ++ c :: w.
Proof.
  intros c w k. induction k as [|k IH]; intros u H; cbn [strip]; [eauto|].
  destruct (space_right_step u c w H) as (u' & Q & _).
  destruct (space_right (u ++ c :: w)) as [|m]; [eauto|].
  rewrite Q. apply IH, H.
Qed.

(** A string whose first character and some later character are plain keeps everything
    up to the latter. *)
Lemma TrimSpace_prefix : forall a p c x, plain_char a -> plain_char c ->
  exists y, TrimSpace (a :: p ++ c :: x) = a :: p ++ c :: y.
Proof.
  intros a p c x A C. unfold TrimSpace.
  rewrite (strip_zero space_left) by (apply space_left_plain, A).
  replace (rev (a :: p ++ c :: x)) with (rev x ++ c :: rev (a :: p))
    by (cbn [rev]; rewrite rev_app_distr; cbn [rev]; rewrite <- !app_assoc; reflexivity).
  destruct (strip_right_stop c (rev (a :: p)) (length (a :: p ++ c :: x)) (rev x) C) as (u & ->).
  exists (rev u). rewrite rev_app_distr. cbn [rev]. rewrite rev_app_distr, rev_involutive.
  cbn [rev app]. now rewrite <- !app_assoc.
Qed.
Lemma TrimSpace_plain : forall s, Forall plain_char s -> TrimSpace s = s.
Proof.
  intros s F. unfold TrimSpace. destruct s as [|a s]; [reflexivity|].
  rewrite (strip_zero space_left) by (apply space_left_plain; inversion F; assumption).
  assert (G : Forall plain_char (rev (a :: s))) by (now apply Forall_rev).
  destruct (rev (a :: s)) as [|z r] eqn:R.
  { apply (f_equal (@rev _)) in R. rewrite rev_involutive in R. discriminate. }
  rewrite strip_zero by (apply space_right_plain; inversion G; assumption).
  rewrite <- R. apply rev_involutive.
Qed.

(** ** Numbers *)
Lemma is_digit_plain : forall c, is_digit c = true -> plain_char c.
Proof. unfold is_digit, plain_char. intros. lia. Qed.

Lemma drop_while_all : forall p s, forallb p s = true -> drop_while p s = [].
Proof.
  intros p s. induction s as [|c s IH]; cbn [forallb drop_while]; intro H; [reflexivity|].
  apply andb_prop in H as [-> H]. auto.
Qed.
Lemma drop_while_none : forall p s c, In c s -> p c = false -> drop_while p s <> [].
Proof.
  intros p s. induction s as [|d s IH]; intros c I H; [destruct I|]. cbn [drop_while].
  destruct I as [->|I]; [now rewrite H|]. destruct (p d); [eauto|discriminate].
Qed.
Lemma Trim_all : forall p s, forallb p s = true -> Trim p s = [].
Proof. intros p s H. unfold Trim. now rewrite (drop_while_all p s H). Qed.
Lemma drop_while_keep : forall p s c, In c s -> p c = false -> In c (drop_while p s).
Proof.
  intros p s. induction s as [|d s IH]; intros c I H; [destruct I|]. cbn [drop_while].
  destruct I as [->|I]; [rewrite H; now left|]. destruct (p d); [eauto|now right].
Qed.
Lemma Trim_keep : forall p s c, In c s -> p c = false -> In c (Trim p s).
Proof.
  intros p s c I H. unfold Trim. rewrite <- in_rev. apply drop_while_keep; [|assumption].
  rewrite <- in_rev. now apply drop_while_keep.
Qed.
Lemma Trim_nil_inv : forall p s, Trim p s = [] -> forallb p s = true.
Proof.
  intros p s H. apply forallb_forall. intros c I. destruct (p c) eqn:Q; [reflexivity|].
  apply (Trim_keep p s c) in I; [|assumption]. rewrite H in I. destruct I.
Qed.

Lemma digits_digit : forall k n, forallb is_digit (digits k n) = true.
Proof.
  induction k as [|k IH]; intro n; cbn [digits]; [reflexivity|].
  destruct (N.ltb_spec n 10) as [L|L].
  - cbn [forallb]. unfold is_digit. rewrite b2n_n2b. lia.
  - rewrite forallb_app, IH. cbn [forallb]. unfold is_digit. rewrite b2n_n2b.
    pose proof (N.mod_lt n 10). lia.
Qed.
Lemma dec_value_app : forall s t a, dec_value a (s ++ t) = dec_value (dec_value a s) t.
Proof. induction s as [|c s IH]; intros t a; cbn [app dec_value]; [reflexivity|apply IH]. Qed.
Lemma digits_value : forall k n, n < 10 ^ N.of_nat k -> dec_value 0 (digits k n) = n.
Proof.
  induction k as [|k IH]; intros n L.
  - change (10 ^ N.of_nat 0) with 1 in L. cbn [digits dec_value]. lia.
  - cbn [digits]. rewrite Nnat.Nat2N.inj_succ, N.pow_succ_r' in L.
    destruct (N.ltb_spec n 10) as [S|S].
    + cbn [dec_value]. rewrite b2n_n2b. lia.
    + rewrite dec_value_app, IH by (apply N.div_lt_upper_bound; lia).
      cbn [dec_value]. rewrite b2n_n2b.
      pose proof (N.mod_lt n 10). pose proof (N.div_mod n 10). lia.
Qed.
Lemma digits_ne : forall k n, digits (S k) n <> [].
Proof.
  intros k n. cbn [digits]. destruct (n <? 10); [discriminate|]. now destruct (digits k (n / 10)).
Qed.
Lemma FormatUint_parse : forall n, n < 2^32 -> ParseUint32 (FormatUint n) = Some n.
Proof.
  intros n L. unfold ParseUint32, FormatUint. rewrite digits_value.
  - now replace (n <? 2^32) with true by lia.
  - eapply N.lt_trans; [exact L|reflexivity].
Qed.
Lemma FormatUint_digit : forall n, forallb is_digit (FormatUint n) = true.
Proof. intro. apply digits_digit. Qed.
Lemma FormatUint_ne : forall n, FormatUint n <> [].
Proof. intro. apply digits_ne. Qed.
Lemma FormatUint_plain : forall n, Forall plain_char (FormatUint n).
Proof.
  intro n. apply Forall_forall. intros c I. apply is_digit_plain.
  pose proof (FormatUint_digit n) as H. rewrite forallb_forall in H. now apply H.
Qed.
