(** Layout between the tokens does not matter: helper lemmas of C77. *)
From Coq Require Import List ZArith Bool Lia String.
From Verif Require Import AtnTable Atn LexSpec LexDfa LexProofs.
Import ListNotations.
Import StringSyntax.
Local Open Scope string_scope.
Local Open Scope list_scope.
Open Scope Z_scope.

Definition vec_bounds (v : vec) : bool :=
  forallb (fun q => forallb okb (re_bounds (snd q))) v.

Lemma dvecs_app v x y : dvecs v (x ++ y) = dvecs (dvecs v x) y.
Proof. unfold dvecs. apply fold_left_app. Qed.
Lemma dvecs_nil x : dvecs [] x = [].
Proof. unfold dvecs. induction x; cbn; auto. Qed.

Lemma vec_state t : is_text t ->
  dvecs kinds t = [] \/
  (vec_bounds (dvecs kinds t) = true /\ follow_ok (dvecs kinds t) = true
   /\ avoid_ok (dvecs kinds t) = true).
Proof.
  destruct explored_pairs as (seen & Hs & G).
  intros Ht.
  assert (A : dvecs kinds t = [] \/ exists l, In (l, dvecs kinds t) seen).
  { induction t as [|c t IH] using rev_ind.
    - right. exists (fst start_pair).
      change (dvecs kinds []) with (snd start_pair). rewrite <- surjective_pairing. exact Hs.
    - apply Forall_app in Ht as [Ht Hc]. inversion Hc as [|? ? Hc' _]; subst.
      rewrite dvecs_app. change (dvecs (dvecs kinds t) [c]) with (dvec c (dvecs kinds t)).
      destruct (IH Ht) as [->|(l & Hl)]; [left; reflexivity|].
      destruct (pair_step seen _ c G Hl Hc') as [[_ E]|(l' & v & _ & E & _ & _ & Hin)].
      + left. exact E.
      + right. exists l'. cbn [snd] in E. rewrite E. exact Hin. }
  destruct A as [A|(l & Hl)]; [auto|]. right.
  destruct (proj1 G _ Hl) as [L _]. apply local_parts in L as (_ & _ & L1 & L2 & L3). auto.
Qed.

(* the first kind of t is what the vector accepts after t *)
Lemma first_accept k t : first_kind k t -> vaccept (dvecs kinds t) = Some k.
Proof.
  intros [H1 H2].
  assert (Asc : asc 0 (dvecs kinds t)).
  { clear. generalize kinds_asc. generalize kinds. unfold dvecs.
    induction t as [|c t IH]; cbn; intros v Hv; auto. apply IH. now apply asc_dvec. }
  assert (M : forall k0, of_kind k0 t <-> vmatches (dvecs kinds t) k0 []).
  { intros k0. rewrite dvecs_ok, app_nil_r. apply of_kind_vmatches. }
  destruct (vaccept (dvecs kinds t)) as [k0|] eqn:E.
  - destruct (vaccept_some _ _ _ Asc E) as [A B].
    f_equal. destruct (Z.lt_trichotomy k0 k) as [L|[L|L]]; auto.
    + exfalso. apply (H2 k0 L). now apply M.
    + exfalso. apply (B k L). now apply M.
  - exfalso. eapply (vaccept_none _ E k). now apply M.
Qed.

Lemma first_nonempty k t : first_kind k t -> t <> [].
Proof. intros [H _] ->. eapply kinds_nonempty; eauto. Qed.

Lemma glues_rep k c : is_char c -> glues k c = glues k (rep c).
Proof.
  intros Hc. unfold glues, is_space, is_digit, is_word_char.
  assert (E : forall x, okb x = true -> okb (x + 1) = true -> (c =? x) = (rep c =? x)).
  { intros x O1 O2. pose proof (in_ranges_rep [(x, x)] c) as E. cbn in E.
    rewrite !orb_false_r, O1, O2 in E. specialize (E eq_refl Hc).
    assert (F : forall y, (y =? x) = (x <=? y) && (y <=? x)).
    { intros y. destruct (y =? x) eqn:A.
      - apply Z.eqb_eq in A. subst. rewrite Z.leb_refl. auto.
      - apply Z.eqb_neq in A. destruct (x <=? y) eqn:B, (y <=? x) eqn:C; auto.
        apply Z.leb_le in B, C. lia. }
    rewrite !F. exact E. }
  rewrite <- (in_ranges_rep space_ranges c) by (auto; vm_compute; reflexivity).
  rewrite <- (in_ranges_rep [range "0" "9"] c) by (auto; vm_compute; reflexivity).
  rewrite <- (in_ranges_rep (letter_ranges ++ [range "0" "9"]) c)
    by (auto; vm_compute; reflexivity).
  rewrite <- !E by (vm_compute; reflexivity). reflexivity.
Qed.

(* after a token, a character that does not glue ends it *)
Lemma dead_after k t c : is_text t -> is_char c -> first_kind k t -> glues k c = false ->
  dvec c (dvecs kinds t) = [].
Proof.
  intros Ht Hc F E. pose proof (first_accept _ _ F) as A.
  destruct (vec_state t Ht) as [->|(B & L & _)]; [reflexivity|].
  unfold follow_ok in L. rewrite A in L. rewrite forallb_forall in L.
  specialize (L (rep c) (rep_in _ _ _)).
  rewrite <- glues_rep, E in L by auto. rewrite (dvec_rep _ c B Hc).
  destruct (dvec (rep c) (dvecs kinds t)); [reflexivity|discriminate].
Qed.

Lemma apart_front k t rest : is_text (t ++ rest) -> first_kind k t -> apart k rest ->
  front_token k t rest.
Proof.
  intros Ht F Ha. split; [eapply first_nonempty; eauto|]. split; [exact F|].
  intros x y k' -> Hx M. apply Forall_app in Ht as [Ht Hr].
  destruct x as [|c x]; [congruence|]. cbn in Ha. inversion Hr; subst.
  apply of_kind_vmatches, dvecs_ok in M.
  change (dvecs kinds t) with (dvecs kinds t) in M.
  assert (D := dead_after k t c Ht ltac:(assumption) F Ha).
  apply dvec_ok in M. rewrite D in M. destruct M as (r & [] & _).
Qed.

(* ---------- texts that begin in a known way ---------- *)
Lemma begins_kind p t k k' : (forall q, In q (dvecs kinds p) -> fst q = k) ->
  of_kind k' (p ++ t) -> k' = k.
Proof.
  intros H M. apply of_kind_vmatches, dvecs_ok in M as (r & Hin & _).
  exact (H (k', r) Hin).
Qed.

Lemma space_kind c t k : is_space c = true -> is_char c -> of_kind k (c :: t) -> k = 59.
Proof.
  intros S Hc. apply (begins_kind [c] t 59).
  assert (E : forall c, is_space c = true -> c = 9 \/ c = 10 \/ c = 12 \/ c = 13 \/ c = 32).
  { clear. unfold is_space, space_ranges. cbn. intros c H.
    repeat (apply orb_prop in H as [H|H]); try discriminate;
      apply andb_prop in H as [A B]; apply Z.leb_le in A, B; lia. }
  destruct (E c S) as [-> | [-> | [-> | [-> | ->]]]]; vm_compute; intros q [<-|[]]; reflexivity.
Qed.
Lemma space_char c : is_space c = true -> is_char c.
Proof.
  unfold is_space, space_ranges. cbn. intros H.
  repeat (apply orb_prop in H as [H|H]); try discriminate;
    apply andb_prop in H as [A B]; apply Z.leb_le in A, B; unfold is_char; lia.
Qed.

Lemma in_kind k r t : In (k, r) kinds -> matches r t -> of_kind k t.
Proof. intros H M. exists r. auto. Qed.

Lemma lit2 (a b : Z) r t : matches (Seq (Seq (chr a) (chr b)) r) t ->
  exists x, t = a :: b :: x /\ matches r x.
Proof.
  intros M. inversion M as [| | |? ? x y Hx Hy| | | |]; subst.
  inversion Hx as [| | |? ? u v Hu Hv| | | |]; subst.
  inversion Hu as [|l c E| | | | | |]; subst. inversion Hv as [|l' c' E'| | | | | |]; subst.
  exists y. cbn in *. rewrite orb_false_r in *.
  apply andb_prop in E as [E1 E2]. apply andb_prop in E' as [E3 E4].
  apply Z.leb_le in E1, E2, E3, E4.
  replace c with a by lia. replace c' with b by lia. auto.
Qed.

Lemma line_first b : matches line_comment b -> first_kind 60 b.
Proof.
  intros M. split.
  - apply (in_kind 60 line_comment); auto. do 59 (right; cbn [tl]). left. reflexivity.
  - intros k' L H. apply (lit2 47 47) in M as (x & -> & _).
    assert (k' = 60); [|lia].
    refine (begins_kind [47; 47] x 60 k' _ H). vm_compute. intros q [<-|[]]. reflexivity.
Qed.
Lemma block_first b : matches block_comment b -> first_kind 61 b.
Proof.
  intros M. split.
  - apply (in_kind 61 block_comment); auto. do 60 (right; cbn [tl]). left. reflexivity.
  - intros k' L H. apply (lit2 47 42) in M as (x & -> & _).
    assert (k' = 61); [|lia].
    refine (begins_kind [47; 42] x 61 k' _ H). vm_compute. intros q [<-|[]]. reflexivity.
Qed.

Definition all_space (w : text) : Prop := Forall (fun c => is_space c = true) w.
Lemma many_space w : matches (Many (OneOf space_ranges)) w <-> all_space w.
Proof.
  split.
  - intros M. remember (Many (OneOf space_ranges)) as r eqn:E.
    induction M; try discriminate; [constructor|]. injection E as ->.
    apply Forall_app. split; [|exact (IHM2 eq_refl)]. inversion M1; subst. constructor; auto.
  - induction 1; [constructor|]. change (x :: l) with ([x] ++ l). constructor; auto.
    constructor. assumption.
Qed.
Lemma space_of_kind w : of_kind 59 w <-> w <> [] /\ all_space w.
Proof.
  split.
  - intros (r & Hin & M).
    assert (r = whitespace).
    { clear M. vm_compute in Hin. repeat destruct Hin as [Hin|Hin];
        try discriminate; [|destruct Hin]. injection Hin as <-. reflexivity. }
    subst r. inversion M as [| | |? ? x y Hx Hy| | | |]; subst.
    inversion Hx as [|l c E| | | | | |]; subst. split; [discriminate|].
    constructor; [exact E | now apply many_space].
  - intros [H1 H2]. destruct w as [|c w]; [congruence|]. inversion H2; subst.
    apply (in_kind 59 whitespace).
    + do 58 (right; cbn [tl]). left. reflexivity.
    + unfold whitespace, some. change (c :: w) with ([c] ++ w). constructor.
      * constructor. assumption.
      * now apply many_space.
Qed.
Lemma space_first w : w <> [] -> all_space w -> first_kind 59 w.
Proof.
  intros H1 H2. split; [now apply space_of_kind|]. intros k' L H.
  destruct w as [|c w]; [congruence|]. inversion H2; subst.
  apply space_kind in H; auto; [lia | now apply space_char].
Qed.

(* ---------- blanks before a tokenized text ---------- *)
Lemma tokenized_nonempty s l : tokenized s l -> (s = [] <-> l = []).
Proof.
  intros H. inversion H; subst; [tauto|]. split; [|discriminate].
  intros E. apply app_eq_nil in E as [-> _]. destruct H0 as [H0 _]. congruence.
Qed.

Lemma space_tok c s l : is_space c = true -> is_text s -> tokenized s l ->
  exists l', tokenized (c :: s) l' /\ visible l' = visible l.
Proof.
  intros S Ht T. pose proof (space_char c S) as Hc.
  destruct s as [|d s].
  { inversion T; [subst|]. 2:{ destruct H0 as [N _]. destruct t; [congruence|discriminate]. }
    exists [(59, [c])]. split; [|reflexivity].
    change [c] with ([c] ++ []) at 1. constructor; [|constructor].
    apply apart_front; cbn; auto. { repeat constructor; apply Hc. }
    apply space_first; [discriminate | repeat constructor; auto]. }
  destruct (is_space d) eqn:Sd.
  - (* the first token is blanks *)
    inversion T as [|k t rest l0 Hf Ht0 E]; subst. destruct Hf as (N & F & Mx).
    destruct t as [|d' t]; [congruence|]. cbn in E. injection E as -> <-.
    assert (k = 59).
    { destruct F as [F _]. eapply space_kind; eauto. now apply space_char. }
    subst k. assert (W : all_space (d :: t)) by (destruct F as [F _]; apply space_of_kind in F; tauto).
    exists ((59, c :: d :: t) :: l0). split; [|reflexivity].
    apply (tok_cons 59 (c :: d :: t) rest l0); auto.
    assert (Ht' : is_text ((c :: d :: t) ++ rest)) by (constructor; assumption).
    apply apart_front; auto.
    + apply space_first; [discriminate | constructor; auto].
    + destruct rest as [|e rest]; cbn; auto. change (glues 59 e) with (is_space e).
      destruct (is_space e) eqn:Se; auto. exfalso.
      apply (Mx [e] rest 59 eq_refl); [discriminate|]. apply space_of_kind.
      split; [discriminate|]. apply Forall_app. split; [exact W|repeat constructor; exact Se].
  - exists ((59, [c]) :: l). split; [|reflexivity].
    apply (tok_cons 59 [c] (d :: s) l); auto.
    apply apart_front; auto. { constructor; auto. }
    apply space_first; [discriminate | repeat constructor; auto].
Qed.

Lemma spaces_tok w s l : all_space w -> is_text s -> tokenized s l ->
  exists l', tokenized (w ++ s) l' /\ visible l' = visible l.
Proof.
  induction w as [|c w IH]; cbn [app]; intros W Ht T; [eauto|]. inversion W; subst.
  destruct (IH ltac:(assumption) Ht T) as (l' & T' & E').
  destruct (space_tok c (w ++ s) l') as (l'' & T'' & E''); auto.
  - apply Forall_app. split; auto.
    eapply Forall_impl; [|eassumption]. intros a Ha. now apply space_char.
  - exists l''. rewrite E''. auto.
Qed.

Lemma layout_tok sep : layout sep -> forall s l, is_text (sep ++ s) -> tokenized s l ->
  exists l', tokenized (sep ++ s) l' /\ visible l' = visible l.
Proof.
  induction 1 as [|c sep Hc L IH|b sep Hb L IH|b sep Hb L IH]; intros s l Ht T.
  - cbn. eauto.
  - cbn [app] in *. inversion Ht; subst.
    destruct (IH s l) as (l' & T' & E'); auto.
    destruct (space_tok c (sep ++ s) l') as (l'' & T'' & E''); auto.
    exists l''. rewrite E''. auto.
  - rewrite <- app_assoc in *.
    destruct (IH s l) as (l' & T' & E'); auto. { apply Forall_app in Ht as [_ Ht]; auto. }
    exists ((61, b) :: l'). split; [|cbn; auto]. constructor; auto.
    apply apart_front; auto; [now apply block_first|]. destruct (sep ++ s); reflexivity || exact I.
  - rewrite <- app_assoc in *. cbn [app] in *.
    assert (Ht' : is_text (newline :: sep ++ s)) by (apply Forall_app in Ht as [_ Ht]; auto).
    destruct (IH s l) as (l' & T' & E'); auto. { inversion Ht'; auto. }
    destruct (space_tok newline (sep ++ s) l') as (l'' & T'' & E''); auto.
    { inversion Ht'; auto. }
    exists ((60, b) :: l''). split; [|cbn; rewrite <- E'; auto]. constructor; auto.
    apply apart_front; auto; [now apply line_first|]. reflexivity.
Qed.

(* ---------- C77, writing tokens ---------- *)
Lemma written_tok l s : written l s -> is_text s ->
  exists l', tokenized s l' /\ visible l' = l.
Proof.
  induction 1 as [s L|s b L Hb|s k t l rest L Hk F Ha W IH]; intros Ht.
  - destruct (layout_tok s L [] []) as (l' & T & E); [rewrite app_nil_r; auto|constructor|].
    rewrite app_nil_r in T. eauto.
  - destruct (layout_tok s L b [(60, b)]) as (l' & T & E); auto; [|eauto].
    rewrite <- (app_nil_r b) at 1. constructor; [|constructor].
    apply apart_front; [|now apply line_first|exact I].
    rewrite app_nil_r. apply Forall_app in Ht. tauto.
  - assert (Ht' : is_text (t ++ rest)) by (apply Forall_app in Ht; tauto).
    destruct IH as (l1 & T1 & E1). { apply Forall_app in Ht'. tauto. }
    destruct (layout_tok s L (t ++ rest) ((k, t) :: l1)) as (l' & T & E); auto.
    { constructor; auto. now apply apart_front. }
    exists l'. split; auto. rewrite E. unfold visible in *. cbn [filter fst].
    rewrite Hk, E1. reflexivity.
Qed.

(* ---------- C77, inserting layout ---------- *)
Lemma avoids_no r t c : avoids r = true -> matches r t -> In c layout_starts -> ~ In c t.
Proof.
  intros A M Hc. induction M; cbn [avoids] in A; intros Hin.
  - destruct Hin.
  - destruct Hin as [<-|[]]. rewrite forallb_forall in A. specialize (A _ Hc).
    rewrite H in A. discriminate.
  - destruct Hin as [<-|[]]. rewrite forallb_forall in A. specialize (A _ Hc). congruence.
  - apply andb_prop in A as [A1 A2]. apply in_app_or in Hin as [Hin|Hin]; [apply IHM1 | apply IHM2]; auto.
  - apply andb_prop in A as [A1 A2]. apply IHM; auto.
  - apply andb_prop in A as [A1 A2]. apply IHM; auto.
  - destruct Hin.
  - apply in_app_or in Hin as [Hin|Hin]; [apply IHM1 | apply IHM2]; auto.
Qed.

Lemma layout_start sep : layout sep -> match sep with [] => True | c :: _ => In c layout_starts end.
Proof.
  destruct 1 as [|c sep Hc L|b sep Hb L|b sep Hb L]; auto.
  - unfold is_space, space_ranges in Hc. cbn in Hc.
    assert (c = 9 \/ c = 10 \/ c = 12 \/ c = 13 \/ c = 32).
    { repeat (apply orb_prop in Hc as [Hc|Hc]); try discriminate;
        apply andb_prop in Hc as [A B]; apply Z.leb_le in A, B; lia. }
    unfold layout_starts. cbn. intuition.
  - apply (lit2 47 42) in Hb as (x & -> & _). cbn. auto 10.
  - apply (lit2 47 47) in Hb as (x & -> & _). cbn. auto 10.
Qed.

(* the kinds that go to the parser, other than string literals, have neither
   blanks nor slashes, whatever follows *)
Lemma no_layout_inside k t x k' : is_text t -> first_kind k t -> channel_of k = 0 -> k <> 54 ->
  of_kind k' (t ++ x) -> forall c, In c layout_starts -> ~ In c x.
Proof.
  intros Ht F Hk Hn M c Hc. pose proof (first_accept _ _ F) as A.
  apply of_kind_vmatches, dvecs_ok in M as (r & Hin & M).
  destruct (vec_state t Ht) as [E|(_ & _ & L)]; [rewrite E in Hin; destruct Hin|].
  unfold avoid_ok in L. rewrite A, Hk in L. cbn [Z.eqb negb orb] in L.
  apply Z.eqb_neq in Hn. rewrite Hn in L. cbn [orb] in L.
  rewrite forallb_forall in L. specialize (L _ Hin). cbn [snd] in L.
  eapply avoids_no; eauto.
Qed.

Lemma channels k : channel_of k = 0 \/ k = 59 \/ k = 60 \/ k = 61.
Proof.
  unfold channel_of. destruct (k =? 59) eqn:A; [apply Z.eqb_eq in A; auto|].
  destruct (k =? 60) eqn:B; [apply Z.eqb_eq in B; auto|].
  destruct (k =? 61) eqn:C; [apply Z.eqb_eq in C; auto|]. auto.
Qed.

Definition last_kind (l : list (Z * text)) : Z := fst (last l (0, [])).

(* a token before the place of the insertion stays a token *)
Lemma keep_front k t a b sep : is_text (t ++ a ++ sep ++ b) -> layout sep -> k <> 59 ->
  (k = 60 -> a <> []) ->
  front_token k t (a ++ b) -> front_token k t (a ++ sep ++ b).
Proof.
  intros Ht L Hk Hl (N & F & Mx). split; auto. split; auto.
  intros x y k' E Hx M. apply Forall_app in Ht as [Ht Hr].
  destruct x as [|c x]; [congruence|].
  assert (Hc : is_char c) by (rewrite E in Hr; inversion Hr; auto).
  assert (Dead : glues k c = false -> False).
  { intros G. apply of_kind_vmatches, dvecs_ok, dvec_ok in M.
    rewrite (dead_after k t c Ht Hc F G) in M. destruct M as (r & [] & _). }
  destruct (channels k) as [K|[K|[K|K]]]; [|congruence| |].
  - destruct (Z.eq_dec k 54) as [->|Hn]; [apply Dead; reflexivity|].
    pose proof (no_layout_inside k t (c :: x) k' Ht F K Hn M) as Nl.
    (* c :: x is a prefix of a, since it cannot reach into sep *)
    apply app_eq_app in E as (z & [[E1 E2]|[E1 E2]]).
    + subst a. apply (Mx (c :: x) (z ++ b) k'); auto. now rewrite <- app_assoc.
    + destruct z as [|d z].
      * rewrite app_nil_r in E1. apply (Mx a b k'); auto; congruence.
      * destruct sep as [|d' sep].
        { cbn in E2. apply (Mx (c :: x) y k'); auto. rewrite E1, <- app_assoc. cbn. congruence. }
        pose proof (layout_start _ L) as S. cbn in S, E2. injection E2 as -> _.
        apply (Nl d S). rewrite E1. apply in_or_app. right. now left.
  - (* a line comment before its line end *)
    subst k. destruct a as [|e a]; [exact (Hl eq_refl eq_refl)|]. cbn in E. injection E as <- _.
    destruct (glues 60 e) eqn:G; [|auto]. exfalso.
    apply (Mx [e] (a ++ b) 60 eq_refl); [discriminate|].
    destruct F as [(r & Hin & F) _]. exists r. split; auto.
    assert (r = line_comment).
    { clear - Hin. vm_compute in Hin. repeat destruct Hin as [Hin|Hin];
        try discriminate; [|destruct Hin]. injection Hin as <-. reflexivity. }
    subst r. unfold line_comment in *.
    inversion F as [| | |? ? u v Hu Hv| | | |]; subst. rewrite <- app_assoc.
    constructor; auto. clear - Hv G Hc.
    assert (A : in_ranges [(newline, newline); (creturn, creturn)] e = false).
    { cbn in *. apply negb_true_iff in G. apply orb_false_elim in G as [G1 G2].
      unfold newline, creturn in *. apply Z.eqb_neq in G1, G2.
      destruct (10 <=? e) eqn:A1, (e <=? 10) eqn:A2, (13 <=? e) eqn:A3, (e <=? 13) eqn:A4; cbn; auto;
        rewrite ?Z.leb_le, ?Z.leb_gt in *; lia. }
    remember (Many (NoneOf [(newline, newline); (creturn, creturn)])) as r eqn:Er.
    induction Hv; try discriminate.
    + injection Er as ->.
      change ([] ++ [e]) with ([e] ++ []). constructor; constructor; auto.
    + rewrite <- app_assoc. constructor; auto.
  - subst k. apply Dead. reflexivity.
Qed.

Lemma insert_tok sep b l2 : layout sep -> forall l1 a,
  a = List.concat (map snd l1) -> last_kind l1 <> 60 -> is_text (a ++ sep ++ b) ->
  tokenized (a ++ b) (l1 ++ l2) ->
  exists l', tokenized (a ++ sep ++ b) l' /\ visible l' = visible (l1 ++ l2).
Proof.
  intros L. induction l1 as [|[k t] l1 IH]; intros a -> Hl Ht T.
  - cbn [map List.concat app] in *. destruct (layout_tok sep L b l2) as (l' & T' & E'); eauto.
  - cbn [map snd List.concat app] in *. rewrite <- app_assoc in Ht.
    set (a := List.concat (map snd l1)) in *.
    inversion T as [|k0 t0 rest l0 Hf Ht0 E]; subst.
    rewrite <- app_assoc in E. apply app_inv_head in E. subst rest.
    assert (Hl' : last_kind l1 <> 60).
    { unfold last_kind in *. destruct l1 as [|q l1]; [cbn; lia|]. exact Hl. }
    destruct (IH a eq_refl Hl') as (l' & T' & E'); auto. { apply Forall_app in Ht. tauto. }
    destruct (Z.eq_dec k 59) as [->|Hk].
    + assert (W : all_space t) by (destruct Hf as (_ & [F _] & _); apply space_of_kind in F; tauto).
      destruct (spaces_tok t (a ++ sep ++ b) l' W) as (l'' & T'' & E''); auto.
      { apply Forall_app in Ht. tauto. }
      exists l''. rewrite <- app_assoc. split; auto. rewrite E'', E'. reflexivity.
    + exists ((k, t) :: l'). rewrite <- app_assoc. split.
      * constructor; auto. apply keep_front; auto. intros -> Ha.
        apply Hl. unfold last_kind. destruct l1 as [|[k1 t1] l1]; [reflexivity|].
        exfalso. subst a. cbn in Ha, Ht0. apply app_eq_nil in Ha as [-> _].
        inversion Ht0 as [|? ? ? ? Hf1 ? E1]; subst. destruct Hf1 as [Hf1 _]. congruence.
      * unfold visible in *. cbn [filter fst]. rewrite E'. reflexivity.
Qed.
