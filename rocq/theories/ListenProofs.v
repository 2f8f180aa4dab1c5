(** Proofs about Listen.v: the walk builds the tree the text describes. *)
From Coq Require Import List Arith Bool ZArith Lia Strings.String Init.Byte Permutation.
From Verif Require Import Base GoStr GenField Verify StrLit Listen ListenSpec StrFacts.
Import ListNotations StringSyntax.
Open Scope nat_scope.

(** ** Lists *)
Lemma all_some {A B} (f : A -> option B) l r : all f l = Some r -> Forall2 (fun a b => f a = Some b) l r.
Proof.
  revert r; induction l as [|a l IH]; intros r E; cbn in E.
  - injection E as <-; constructor.
  - destruct (f a) eqn:Ea; [|discriminate]. change (match all f l with Some ys => Some (b :: ys) | None => None end = Some r) in E.
    destruct (all f l); [|discriminate]. injection E as <-. constructor; auto.
Qed.
Lemma all_none {A B} (f : A -> option B) l r : all f l = None -> ~ Forall2 (fun a b => f a = Some b) l r.
Proof.
  intros E F. enough (all f l = Some r) by congruence. clear E. induction F as [|a b l r Ea F IH]; [reflexivity|].
  cbn. rewrite Ea. change (match all f l with Some ys => Some (b :: ys) | None => None end = Some (b :: r)). now rewrite IH.
Qed.
Lemma Forall2_iff {A B} (P Q : A -> B -> Prop) l r : (forall a b, P a b <-> Q a b) -> Forall2 P l r <-> Forall2 Q l r.
Proof. intros H; split; intros F; induction F; constructor; auto; now apply H. Qed.
Lemma Forall2_len {A B} (P : A -> B -> Prop) l r : Forall2 P l r -> length l = length r.
Proof. induction 1; cbn; auto. Qed.
Lemma on_last_snoc {A} (k : A -> option A) l x : on_last k (l ++ [x]) = match k x with Some y => Some (l ++ [y]) | None => None end.
Proof.
  induction l as [|a l IH]; [cbn; now destruct (k x)|]. cbn [app on_last]. rewrite IH.
  destruct l; cbn [app]; now destruct (k x).
Qed.
Lemma upd_nth_length {A} i (x : A) l : length (upd_nth i x l) = length l.
Proof. revert i; induction l; intros [|i]; cbn; auto. Qed.
Lemma upd_nth_same {A} i (x y : A) l : nth_error l i = Some y -> nth_error (upd_nth i x l) i = Some x.
Proof. revert i; induction l; intros [|i]; cbn; intros; try discriminate; auto. Qed.
Lemma upd_nth_other {A} i j (x : A) l : i <> j -> nth_error (upd_nth i x l) j = nth_error l j.
Proof. revert i j; induction l; intros [|i] [|j] H; cbn; auto; now destruct H. Qed.
Lemma upd_nth_twice {A} i (x y : A) l : upd_nth i x (upd_nth i y l) = upd_nth i x l.
Proof. revert i; induction l; intros [|i]; cbn; f_equal; auto. Qed.
Lemma nth_error_snoc {A} (l : list A) x : nth_error (l ++ [x]) (length l) = Some x.
Proof. rewrite nth_error_app2, Nat.sub_diag by lia. reflexivity. Qed.
Lemma nth_error_keep {A} (l : list A) r j x : nth_error l j = Some x -> nth_error (l ++ r) j = Some x.
Proof. intros H. rewrite nth_error_app1; [assumption|]. apply nth_error_Some. congruence. Qed.
Lemma nth_error_lt {A} (l : list A) j x : nth_error l j = Some x -> j < length l.
Proof. intros H; apply nth_error_Some; congruence. Qed.

Lemma run_app st a b : run st (a ++ b) = match run st a with LOk st' => run st' b | x => x end.
Proof. revert st; induction a as [|e a IH]; intros st; [reflexivity|]. cbn [app run]. destruct (step st e); auto. Qed.

(** ** Options, ranges and fields *)
Lemma read_options_some l oo : read_options l = Some oo -> Forall2 option_means l oo.
Proof.
  intros H%all_some. eapply Forall2_iff; [|exact H]. intros [n c] [n' v]. unfold option_means; cbn.
  destruct (unmarshalConst c); split; intuition (subst; try discriminate; congruence).
Qed.
Lemma read_options_none l oo : read_options l = None -> ~ Forall2 option_means l oo.
Proof.
  intros H F. eapply all_none; [exact H|]. eapply Forall2_iff; [|exact F]. intros [n c] [n' v]. unfold option_means; cbn.
  destruct (unmarshalConst c); split; intuition (subst; try discriminate; congruence).
Qed.
Lemma ranges_iff s r : read_range s = Some r <-> range_means s r.
Proof.
  destruct s as [a t], r as [x y]. unfold read_range, range_means; cbn. destruct (parseI32 a) as [i|]; cbn; [|intuition discriminate].
  change (2 ^ 31 - 1)%Z with 2147483647%Z. destruct t as [| |t].
  - split; [intros E; injection E as <- <-; auto | intros [E1 E2]; injection E1 as <-; subst; reflexivity].
  - split; [intros E; injection E as <- <-; auto | intros [E1 E2]; injection E1 as <-; subst; reflexivity].
  - destruct (parseI32 t); split; intros E; try discriminate; [injection E as <- <-; auto | destruct E as [E1 E2]; injection E1 as <-; injection E2 as <-; reflexivity | destruct E; discriminate].
Qed.
Lemma ranges_some l r : all read_range l = Some r -> Forall2 range_means l r.
Proof. intros H%all_some. eapply Forall2_iff; [|exact H]. intros; symmetry; apply ranges_iff. Qed.
Lemma ranges_none l r : all read_range l = None -> ~ Forall2 range_means l r.
Proof. intros H F. eapply all_none; [exact H|]. eapply Forall2_iff; [|exact F]. intros; apply ranges_iff. Qed.

Lemma verify_iff n v : verifyOption n v = true <-> option_allowed (n, v).
Proof.
  unfold verifyOption, option_allowed; cbn [fst snd].
  destruct (str_eqb_spec n (bs "features.repeated_field_encoding")) as [E1|N1];
  destruct (str_eqb_spec n (bs "features.field_presence")) as [E2|N2];
  destruct (str_eqb_spec n (bs "packed")) as [E3|N3];
  destruct (str_eqb_spec n (bs "allow_alias")) as [E4|N4];
  try (exfalso; match goal with A : n = ?a, B : n = ?b |- _ => rewrite A in B; discriminate B end);
  cbn [orb]; rewrite ?Bool.orb_true_iff;
  repeat match goal with |- context [str_eqb v ?b] => destruct (str_eqb_spec v b) end; intuition congruence.
Qed.
Lemma statement_some n c v : unmarshalConst c = Some v -> verifyOption n v = true -> statement_means (n, c) (n, v).
Proof. intros H V. split; [split; auto | now apply verify_iff]. Qed.
Lemma statement_bad n c o v : unmarshalConst c = Some v -> verifyOption n v = false -> ~ statement_means (n, c) o.
Proof. intros H V [[A B] C]. destruct o as [n' v']; cbn in *. subst n'. assert (v' = v) by congruence. subst v'. apply verify_iff in C. congruence. Qed.
Lemma statement_none n c o : unmarshalConst c = None -> ~ statement_means (n, c) o.
Proof. intros H [[A B] C]. cbn in B. congruence. Qed.

Lemma newField_some f key x : newField f key = Some x ->
  fl_name x = sf_name f /\ fl_type x = sf_type f /\ fl_key x = key /\ fl_oneof x = None /\
  UnmarshalI32 (sf_num f) = Some (fl_num x) /\ Forall2 option_means (sf_options f) (fl_options x) /\
  fl_rep x = false /\ fl_req x = false /\ fl_opt x = false.
Proof.
  unfold newField. destruct (UnmarshalI32 (sf_num f)) eqn:E; [|discriminate]. destruct (read_options (sf_options f)) eqn:E2; [|discriminate].
  intros E3; injection E3 as <-; cbn. repeat split. now apply read_options_some.
Qed.
Lemma newField_none ed f key lb key' i x : newField f key = None -> ~ field_means ed (lb, key', i, f) x.
Proof.
  unfold newField, field_means. intros H (_ & _ & _ & _ & N & O & _). rewrite N in H.
  destruct (read_options (sf_options f)) eqn:E2; [discriminate|]. eapply read_options_none; eauto.
Qed.

(** ** The frame of the elements of a message *)
Definition proto_of (st : state) := (p_edition st, p_package st, p_options st, p_imports st, p_msgs st, p_enums st, p_services st).
Record same (st st' : state) (i : nat) : Prop := mkSame {
  s_stack : l_stack st' = l_stack st; s_enum : l_enum st' = l_enum st; s_proto : proto_of st' = proto_of st;
  s_mlen : length (l_msgs st) <= length (l_msgs st'); s_elen : length (l_enums st) <= length (l_enums st');
  s_msgs : forall j x, j <> i -> nth_error (l_msgs st) j = Some x -> nth_error (l_msgs st') j = Some x;
  s_enums : forall j x, nth_error (l_enums st) j = Some x -> nth_error (l_enums st') j = Some x }.
Lemma same_trans a b c i : same a b i -> same b c i -> same a c i.
Proof.
  intros [A1 A2 A3 A4 A5 A6 A7] [B1 B2 B3 B4 B5 B6 B7]. constructor; try congruence; try lia; auto.
Qed.
(** A tree whose objects all come after the first [lom] and [loe] *)
Inductive mshow (lom loe : nat) (st : state) : option nat -> nat -> tmsg -> Prop :=
| mshow_intro p i n fs os es ms oo rr ei mi :
    lom <= i -> nth_error (l_msgs st) i = Some (mkMR n p ei mi fs os oo rr) ->
    Forall2 (fun j t => loe <= j /\ shows_enum st (Some i) j t) ei es -> Forall2 (mshow lom loe st (Some i)) mi ms ->
    mshow lom loe st p i (TM n fs os es ms oo rr).
Definition eshow (loe : nat) (st : state) (p : option nat) (j : nat) (t : tenum) : Prop := loe <= j /\ shows_enum st p j t.

Fixpoint mshow_mono lom loe lom' loe' st st' p i t
  (L1 : lom' <= lom) (L2 : loe' <= loe)
  (M : forall j x, lom <= j -> nth_error (l_msgs st) j = Some x -> nth_error (l_msgs st') j = Some x)
  (E : forall j x, loe <= j -> nth_error (l_enums st) j = Some x -> nth_error (l_enums st') j = Some x)
  (H : mshow lom loe st p i t) {struct H} : mshow lom' loe' st' p i t.
Proof.
  destruct H as [p i n fs os es ms oo rr ei mi L N Fe Fm]. econstructor.
  - lia.
  - eapply M; eassumption.
  - clear - Fe E L2. induction Fe as [|j t ei es [A B] Fe IH]; constructor; auto. split; [lia|]. unfold shows_enum in *. now apply E.
  - clear - Fm M E L1 L2 mshow_mono. induction Fm as [|j t mi ms A Fm IH]; constructor; auto. eapply mshow_mono; eauto.
Qed.
Lemma mshow_keep lom loe lom' loe' st st' p l ts :
  lom' <= lom -> loe' <= loe ->
  (forall j x, lom <= j -> nth_error (l_msgs st) j = Some x -> nth_error (l_msgs st') j = Some x) ->
  (forall j x, loe <= j -> nth_error (l_enums st) j = Some x -> nth_error (l_enums st') j = Some x) ->
  Forall2 (mshow lom loe st p) l ts -> Forall2 (mshow lom' loe' st' p) l ts.
Proof. intros A B C D F. induction F; constructor; auto. eapply mshow_mono; eauto. Qed.
Lemma eshow_keep loe loe' st st' p l ts :
  loe' <= loe ->
  (forall j x, loe <= j -> nth_error (l_enums st) j = Some x -> nth_error (l_enums st') j = Some x) ->
  Forall2 (eshow loe st p) l ts -> Forall2 (eshow loe' st' p) l ts.
Proof. intros B D F. induction F as [|j t ? ? [? ?]]; constructor; auto. split; [lia|]. unfold shows_enum in *; auto. Qed.

(** *** What the elements of a message mean *)
Definition body ed k l fs os es ms oo rr : Prop :=
  Forall2 (field_means ed) (msg_fields k l) fs /\ Forall2 (oneof_means ed) (msg_oneofs k l) os /\
  Forall2 enum_means (msg_enums l) es /\ Forall2 (msg_means ed) (msg_msgs l) ms /\
  Forall2 statement_means (msg_options l) oo /\ Forall2 range_means (msg_reserved l) rr.
Lemma msg_fields_cons k e l : msg_fields k (e :: l) = msg_fields k [e] ++ msg_fields (k + length (msg_oneofs k [e])) l.
Proof. destruct e; cbn; rewrite ?app_nil_r, ?Nat.add_0_r; try reflexivity. now replace (k + 1) with (S k) by lia. Qed.
Lemma msg_oneofs_cons k e l : msg_oneofs k (e :: l) = msg_oneofs k [e] ++ msg_oneofs (k + length (msg_oneofs k [e])) l.
Proof. destruct e; cbn; rewrite ?Nat.add_0_r; try reflexivity. now replace (k + 1) with (S k) by lia. Qed.
Lemma flat_cons {A B} (f : A -> list B) e l : flat_map f (e :: l) = flat_map f [e] ++ flat_map f l.
Proof. cbn. now rewrite app_nil_r. Qed.
Lemma body_cons ed k e l fs1 os1 es1 ms1 oo1 rr1 fs2 os2 es2 ms2 oo2 rr2 :
  body ed k [e] fs1 os1 es1 ms1 oo1 rr1 -> body ed (k + length os1) l fs2 os2 es2 ms2 oo2 rr2 ->
  body ed k (e :: l) (fs1 ++ fs2) (os1 ++ os2) (es1 ++ es2) (ms1 ++ ms2) (oo1 ++ oo2) (rr1 ++ rr2).
Proof.
  intros (A1 & A2 & A3 & A4 & A5 & A6). rewrite <- (Forall2_len _ _ _ A2). intros (B1 & B2 & B3 & B4 & B5 & B6).
  unfold body, msg_enums, msg_msgs, msg_options, msg_reserved. rewrite (msg_fields_cons k e l), (msg_oneofs_cons k e l).
  repeat rewrite (flat_cons _ e l).
  repeat apply conj; apply Forall2_app; assumption.
Qed.
Lemma body_uncons ed k e l fs os es ms oo rr : body ed k (e :: l) fs os es ms oo rr ->
  exists fs1 os1 es1 ms1 oo1 rr1 fs2 os2 es2 ms2 oo2 rr2,
    body ed k [e] fs1 os1 es1 ms1 oo1 rr1 /\ body ed (k + length (msg_oneofs k [e])) l fs2 os2 es2 ms2 oo2 rr2.
Proof.
  unfold body, msg_enums, msg_msgs, msg_options, msg_reserved. rewrite (msg_fields_cons k e l), (msg_oneofs_cons k e l).
  repeat rewrite (flat_cons _ e l).
  intros (A1 & A2 & A3 & A4 & A5 & A6).
  apply Forall2_app_inv_l in A1 as (? & ? & ? & ? & _), A2 as (? & ? & ? & ? & _), A3 as (? & ? & ? & ? & _),
    A4 as (? & ? & ? & ? & _), A5 as (? & ? & ? & ? & _), A6 as (? & ? & ? & ? & _).
  do 12 eexists; split; repeat apply conj; eassumption.
Qed.
Lemma body_nil ed k : body ed k [] [] [] [] [] [] [].
Proof. repeat apply conj; constructor. Qed.

Definition grown (m : mrec) ei mi fs os oo rr : mrec :=
  mkMR (mr_name m) (mr_parent m) (mr_enums m ++ ei) (mr_msgs m ++ mi) (mr_fields m ++ fs) (mr_oneofs m ++ os) (mr_options m ++ oo) (mr_reserved m ++ rr).
Definition res ed (st : state) (i : nat) (m : mrec) (l : list selem) (r : lres) : Prop :=
  match r with
  | LOk st' => exists fs os es ms oo rr ei mi,
      body ed (length (mr_oneofs m)) l fs os es ms oo rr /\
      nth_error (l_msgs st') i = Some (grown m ei mi fs os oo rr) /\
      Forall2 (eshow (length (l_enums st)) st' (Some i)) ei es /\
      Forall2 (mshow (length (l_msgs st)) (length (l_enums st)) st' (Some i)) mi ms /\
      same st st' i
  | LFatal => forall fs os es ms oo rr, ~ body ed (length (mr_oneofs m)) l fs os es ms oo rr
  | LPanic => False
  end.
Definition at_msg (ed : bytes) (st : state) (i : nat) (m : mrec) : Prop :=
  (exists s, l_stack st = i :: s) /\ nth_error (l_msgs st) i = Some m /\ l_enum st = None /\ p_edition st = ed.

Lemma with_msg_at ed st i m k : at_msg ed st i m ->
  with_msg st k = match k m with Some m' => LOk (set_msgs st (upd_nth i m' (l_msgs st))) | None => LPanic end.
Proof. intros ((s & S1) & N & _). unfold with_msg. now rewrite S1, N. Qed.
Lemma same_upd ed st i m m' : at_msg ed st i m -> same st (set_msgs st (upd_nth i m' (l_msgs st))) i.
Proof.
  intros (_ & N & _). constructor; cbn; rewrite ?upd_nth_length; auto. intros j x H Hj. now rewrite upd_nth_other by auto.
Qed.
(** An element that adds no type *)
Lemma res_upd ed st i m l fs os oo rr m' : at_msg ed st i m ->
  body ed (length (mr_oneofs m)) l fs os [] [] oo rr -> m' = grown m [] [] fs os oo rr ->
  res ed st i m l (LOk (set_msgs st (upd_nth i m' (l_msgs st)))).
Proof.
  intros A B ->. exists fs, os, [], [], oo, rr, [], []. split; [exact B|]. destruct A as (A1 & A2 & A3).
  cbn [l_msgs set_msgs]. split; [eapply upd_nth_same; eauto|]. split; [constructor|]. split; [constructor|].
  eapply same_upd; split; eauto.
Qed.
Lemma same_at ed st st' i m m' : at_msg ed st i m -> same st st' i -> nth_error (l_msgs st') i = Some m' -> at_msg ed st' i m'.
Proof.
  intros ((s & S1) & N & E & D) [A1 A2 A3 _ _ _ _] N'. repeat split; auto.
  - exists s. congruence.
  - congruence.
  - unfold proto_of in A3. congruence.
Qed.

(** ** The elements of an enum *)
Definition egrown (e : erec) fs oo rr : erec := mkER (er_name e) (er_parent e) (er_fields e ++ fs) (er_options e ++ oo) (er_reserved e ++ rr).
Definition ebody l fs oo rr : Prop :=
  Forall2 enumfield_means (enum_fields l) fs /\ Forall2 statement_means (enum_options l) oo /\ Forall2 range_means (enum_reserved l) rr.
Lemma ebody_cons e l fs1 oo1 rr1 fs2 oo2 rr2 : ebody [e] fs1 oo1 rr1 -> ebody l fs2 oo2 rr2 -> ebody (e :: l) (fs1 ++ fs2) (oo1 ++ oo2) (rr1 ++ rr2).
Proof.
  intros (A1 & A2 & A3) (B1 & B2 & B3). unfold ebody, enum_fields, enum_options, enum_reserved. repeat rewrite (flat_cons _ e l).
  repeat apply conj; apply Forall2_app; assumption.
Qed.
Lemma ebody_uncons e l fs oo rr : ebody (e :: l) fs oo rr ->
  exists fs1 oo1 rr1 fs2 oo2 rr2, ebody [e] fs1 oo1 rr1 /\ ebody l fs2 oo2 rr2.
Proof.
  unfold ebody, enum_fields, enum_options, enum_reserved. repeat rewrite (flat_cons _ e l). intros (A1 & A2 & A3).
  apply Forall2_app_inv_l in A1 as (? & ? & ? & ? & _), A2 as (? & ? & ? & ? & _), A3 as (? & ? & ? & ? & _).
  do 6 eexists; split; repeat apply conj; eassumption.
Qed.
Lemma set_enums_twice st a b : set_enums (set_enums st a) b = set_enums st b.
Proof. reflexivity. Qed.
Lemma set_enums_self st : set_enums st (l_enums st) = st.
Proof. now destruct st. Qed.
Lemma egrown_egrown e a b c a' b' c' : egrown (egrown e a b c) a' b' c' = egrown e (a ++ a') (b ++ b') (c ++ c').
Proof. unfold egrown; cbn. now rewrite !app_assoc. Qed.
Definition eres st j e l (r : lres) : Prop :=
  match r with
  | LOk st' => exists fs oo rr, ebody l fs oo rr /\ st' = set_enums st (upd_nth j (egrown e fs oo rr) (l_enums st))
  | LFatal => forall fs oo rr, ~ ebody l fs oo rr
  | LPanic => False
  end.
Lemma with_enum_at st j e k : l_enum st = Some j -> nth_error (l_enums st) j = Some e ->
  with_enum st k = LOk (set_enums st (upd_nth j (k e) (l_enums st))).
Proof. intros A B. unfold with_enum. now rewrite A, B. Qed.
Ltac f2inv := repeat match goal with
  | H : Forall2 _ [] _ |- _ => inversion H; subst; clear H
  | H : Forall2 _ (_ :: _) _ |- _ => inversion H; subst; clear H
  end.
Lemma enum_elem_ok st j e x : l_enum st = Some j -> nth_error (l_enums st) j = Some e ->
  eres st j e [x] (run st (walk_enum_elem x)).
Proof.
  intros A B. destruct x as [n c|n neg lit oo|rr|]; cbn [walk_enum_elem run step].
  - destruct (unmarshalConst c) as [v|] eqn:Ec; [destruct (verifyOption n v) eqn:Ev|].
    + rewrite (with_enum_at _ _ _ _ A B). exists [], [(n, v)], []. split.
      * repeat apply conj; try constructor; [|constructor]. now apply statement_some.
      * do 2 f_equal. unfold egrown. now rewrite !app_nil_r.
    + intros fs oo rr (_ & O & _). cbn in O. f2inv. eapply statement_bad; eauto.
    + intros fs oo rr (_ & O & _). cbn in O. f2inv. eapply statement_none; eauto.
  - unfold read_enum_field; cbn [fst snd]. destruct (UnmarshalI32 lit) as [v|] eqn:El; [|].
    + destruct (read_options oo) as [oo'|] eqn:Eo.
      * rewrite (with_enum_at _ _ _ _ A B). exists [mkEF n (if neg then negate v else v) oo'], [], []. split.
        -- repeat apply conj; try constructor; [|constructor]. repeat apply conj; cbn; [reflexivity| |now apply read_options_some].
           exists v. split; [assumption|]. reflexivity.
        -- do 2 f_equal. unfold egrown. now rewrite !app_nil_r.
      * intros fs oo1 rr (F & _). cbn in F. f2inv. match goal with H : enumfield_means _ _ |- _ => destruct H as (_ & _ & O) end.
        eapply read_options_none; eauto.
    + intros fs oo1 rr (F & _). cbn in F. f2inv. match goal with H : enumfield_means _ _ |- _ => destruct H as (_ & (v & Hv & _) & O) end.
      congruence.
  - destruct (all read_range rr) as [r|] eqn:Er.
    + rewrite (with_enum_at _ _ _ _ A B). exists [], [], r. split.
      * repeat apply conj; try constructor. cbn. rewrite app_nil_r. now apply ranges_some.
      * do 2 f_equal. unfold egrown. now rewrite !app_nil_r.
    + intros fs oo r (_ & _ & R). cbn in R. rewrite app_nil_r in R. eapply ranges_none; eauto.
  - exists [], [], []. split; [repeat apply conj; constructor|]. unfold egrown. rewrite !app_nil_r.
    replace (upd_nth j _ _) with (l_enums st); [now rewrite set_enums_self|].
    clear A. destruct e; cbn. revert j B. induction (l_enums st) as [|y l IH]; intros [|j] B; cbn in *; try discriminate; [congruence|]. f_equal; auto.
Qed.
Lemma enum_elems_ok l st j e : l_enum st = Some j -> nth_error (l_enums st) j = Some e ->
  eres st j e l (run st (flat_map walk_enum_elem l)).
Proof.
  revert st e; induction l as [|x l IH]; intros st e A B.
  - cbn. exists [], [], []. split; [repeat apply conj; constructor|]. unfold egrown. rewrite !app_nil_r.
    replace (upd_nth j _ _) with (l_enums st); [now rewrite set_enums_self|].
    clear A. destruct e; cbn. revert j B. induction (l_enums st) as [|y l IH]; intros [|j] B; cbn in *; try discriminate; [congruence|]. f_equal; auto.
  - cbn [flat_map]. rewrite run_app. pose proof (enum_elem_ok st j e x A B) as H. destruct (run st (walk_enum_elem x)) as [st1| |]; cbn in H.
    + destruct H as (fs & oo & rr & Hb & ->).
      specialize (IH (set_enums st (upd_nth j (egrown e fs oo rr) (l_enums st))) (egrown e fs oo rr) A (upd_nth_same _ _ _ _ B)).
      destruct (run _ (flat_map walk_enum_elem l)) as [st2| |]; cbn in IH |- *; [|..].
      * destruct IH as (fs2 & oo2 & rr2 & Hb2 & ->). do 3 eexists. split; [eapply ebody_cons; eauto|].
        rewrite set_enums_twice, upd_nth_twice, egrown_egrown. reflexivity.
      * intros fs2 oo2 rr2 (? & ? & ? & ? & ? & ? & _ & Hb2)%ebody_uncons. eapply IH; eauto.
      * assumption.
    + intros fs2 oo2 rr2 (? & ? & ? & ? & ? & ? & Hb2 & _)%ebody_uncons. eapply H; eauto.
    + assumption.
Qed.
(** An enum as a whole *)
Lemma enum_body_iff n l t : enum_means (mkSEn n l) t <-> te_name t = n /\ ebody l (te_fields t) (te_options t) (te_reserved t).
Proof. unfold enum_means, ebody; cbn. tauto. Qed.

(** ** The elements of a oneof *)
Lemma set_msgs_twice st a b : set_msgs (set_msgs st a) b = set_msgs st b.
Proof. reflexivity. Qed.
Lemma upd_nth_self {A} j (x : A) l : nth_error l j = Some x -> upd_nth j x l = l.
Proof. revert j; induction l as [|y l IH]; intros [|j] B; cbn in *; try discriminate; [congruence|]. f_equal; auto. Qed.
Lemma set_msgs_self st : set_msgs st (l_msgs st) = st.
Proof. now destruct st. Qed.
Definition ogrown (m : mrec) os0 (o : oneof) fs oo : mrec :=
  mkMR (mr_name m) (mr_parent m) (mr_enums m) (mr_msgs m) (mr_fields m ++ fs)
       (os0 ++ [mkO (on_name o) (on_options o ++ oo) (on_fields o ++ fs)]) (mr_options m) (mr_reserved m).
Definition ores ed st i m os0 o l (r : lres) : Prop :=
  match r with
  | LOk st' => exists fs oo, Forall2 (field_means ed) (oneof_fields (length os0) l) fs /\ Forall2 statement_means (oneof_options l) oo /\
      st' = set_msgs st (upd_nth i (ogrown m os0 o fs oo) (l_msgs st))
  | LFatal => forall fs oo, Forall2 (field_means ed) (oneof_fields (length os0) l) fs -> ~ Forall2 statement_means (oneof_options l) oo
  | LPanic => False
  end.
Lemma at_upd ed st i m m' : at_msg ed st i m -> at_msg ed (set_msgs st (upd_nth i m' (l_msgs st))) i m'.
Proof. intros (A & B & C & D). repeat split; auto. cbn. eapply upd_nth_same; eauto. Qed.
Lemma oneof_elem_ok ed st i m os0 o x : at_msg ed st i m -> mr_oneofs m = os0 ++ [o] ->
  ores ed st i m os0 o [x] (run st (walk_oneof_elem x)).
Proof.
  intros A O. destruct x as [n c|f]; cbn [walk_oneof_elem run step].
  - destruct (unmarshalConst c) as [v|] eqn:Ec; [destruct (verifyOption n v) eqn:Ev|].
    + rewrite (with_msg_at _ _ _ _ _ A), O, on_last_snoc. exists [], [(n, v)]. repeat apply conj; cbn.
      * constructor.
      * constructor; [now apply statement_some|constructor].
      * unfold ogrown, set_oneofs. now rewrite !app_nil_r.
    + intros fs oo _ F. cbn in F. f2inv. eapply statement_bad; eauto.
    + intros fs oo _ F. cbn in F. f2inv. eapply statement_none; eauto.
  - destruct (newField f None) as [x|] eqn:Ef.
    + rewrite (with_msg_at _ _ _ _ _ A), O, on_last_snoc. rewrite app_length. cbn [length]. replace (length os0 + 1 - 1) with (length os0) by lia.
      apply newField_some in Ef as (F1 & F2 & F3 & F4 & F5 & F6 & F7 & F8 & F9).
      exists [mkF (fl_name x) (fl_key x) (fl_type x) (fl_num x) false false false (fl_options x) (Some (length os0))], [].
      repeat apply conj; cbn.
      * constructor; [|constructor]. repeat apply conj; cbn; auto; try (split; intros; discriminate); intros; discriminate.
      * constructor.
      * unfold ogrown, add_field, set_oneofs; cbn. now rewrite !app_nil_r.
    + intros fs oo F _. cbn in F. f2inv. eapply newField_none; eauto.
Qed.
Lemma oneof_fields_cons k e l : oneof_fields k (e :: l) = oneof_fields k [e] ++ oneof_fields k l.
Proof. unfold oneof_fields. now rewrite (flat_cons _ e l). Qed.
Lemma oneof_options_cons e l : oneof_options (e :: l) = oneof_options [e] ++ oneof_options l.
Proof. unfold oneof_options. now rewrite (flat_cons _ e l). Qed.
Lemma oneof_elems_ok ed l : forall st i m os0 o, at_msg ed st i m -> mr_oneofs m = os0 ++ [o] ->
  ores ed st i m os0 o l (run st (flat_map walk_oneof_elem l)).
Proof.
  induction l as [|x l IH]; intros st i m os0 o A O.
  - cbn. exists [], []. split; [constructor|]. split; [constructor|]. unfold ogrown. rewrite !app_nil_r.
    replace (mkO (on_name o) (on_options o) (on_fields o)) with o by now destruct o. rewrite <- O.
    replace (mkMR _ _ _ _ _ _ _ _) with m by now destruct m. destruct A as (_ & N & _). rewrite upd_nth_self by assumption. now rewrite set_msgs_self.
  - cbn [flat_map]. rewrite run_app. pose proof (oneof_elem_ok ed st i m os0 o x A O) as H.
    destruct (run st (walk_oneof_elem x)) as [st1| |]; cbn in H.
    + destruct H as (fs & oo & Hf & Ho & ->).
      specialize (IH _ i (ogrown m os0 o fs oo) os0 (mkO (on_name o) (on_options o ++ oo) (on_fields o ++ fs)) (at_upd _ _ _ _ _ A) eq_refl).
      destruct (run _ (flat_map walk_oneof_elem l)) as [st2| |]; cbn [ores] in IH |- *; [|..].
      * destruct IH as (fs2 & oo2 & Hf2 & Ho2 & ->). exists (fs ++ fs2), (oo ++ oo2).
        rewrite (oneof_fields_cons _ x l), (oneof_options_cons x l). split; [now apply Forall2_app|]. split; [now apply Forall2_app|].
        cbn [l_msgs set_msgs]. rewrite set_msgs_twice, upd_nth_twice. unfold ogrown; cbn. now rewrite !app_assoc.
      * intros fs2 oo2. rewrite (oneof_fields_cons _ x l), (oneof_options_cons x l).
        intros (? & ? & ? & ? & _)%Forall2_app_inv_l (? & ? & ? & ? & _)%Forall2_app_inv_l. eapply IH; eauto.
      * assumption.
    + intros fs2 oo2. rewrite (oneof_fields_cons _ x l), (oneof_options_cons x l).
      intros (? & ? & ? & ? & _)%Forall2_app_inv_l (? & ? & ? & ? & _)%Forall2_app_inv_l. eapply H; eauto.
    + assumption.
Qed.

(** ** The elements of a message *)
Lemma extend_ok st l : run st (map (fun x => ExitField RExtend (fst x) (snd x)) l) = LOk st.
Proof. induction l; cbn; auto. Qed.
(** An element that means nothing *)
Lemma res_none ed st i m e : at_msg ed st i m -> body ed (length (mr_oneofs m)) [e] [] [] [] [] [] [] -> res ed st i m [e] (LOk st).
Proof.
  intros A B. exists [], [], [], [], [], [], [], []. split; [assumption|]. unfold grown. rewrite !app_nil_r.
  replace (mkMR _ _ _ _ _ _ _ _) with m by now destruct m. split; [apply A|]. split; [constructor|]. split; [constructor|].
  constructor; auto.
Qed.
Lemma grown_field m x : add_field m x = grown m [] [] [x] [] [] [].
Proof. unfold add_field, grown. now rewrite !app_nil_r. Qed.
Lemma grown_option m x : add_option m x = grown m [] [] [] [] [x] [].
Proof. unfold add_option, grown. now rewrite !app_nil_r. Qed.
Lemma grown_reserved m x : add_reserved m x = grown m [] [] [] [] [] x.
Proof. unfold add_reserved, grown. now rewrite !app_nil_r. Qed.
Ltac bsplit := refine (conj _ (conj _ (conj _ (conj _ (conj _ _))))); cbn [msg_fields msg_oneofs msg_enums msg_msgs msg_options msg_reserved flat_map app];
  repeat first [apply Forall2_nil | apply Forall2_cons].

(** *** An enum in a message *)
Lemma enum_in_ok ed st i m e : at_msg ed st i m -> res ed st i m [SmEnum e] (run st (walk_enum RMessage e)).
Proof.
  intros A. destruct e as [n l]. unfold walk_enum. cbn [sen_name sen_elems run]. cbn [step]. pose proof A as ((s & S1) & N & En & Ed).
  rewrite S1. rewrite (with_msg_at _ _ _ _ _ A). cbn [l_enums set_msgs].
  set (st1 := set_enum _ _). rewrite run_app. set (j := length (l_enums st)).
  assert (E1 : l_enum st1 = Some j) by reflexivity.
  assert (E2 : nth_error (l_enums st1) j = Some (mkER n (Some i) [] [] [])) by (cbn; apply nth_error_snoc).
  pose proof (enum_elems_ok l st1 j _ E1 E2) as H. destruct (run st1 (flat_map walk_enum_elem l)) as [st2| |]; cbn [eres] in H.
  - destruct H as (fs & oo & rr & Hb & ->). cbn [run step]. unfold egrown; cbn [er_name er_parent er_fields er_options er_reserved app].
    exists [], [], [TE n fs oo rr], [], [], [], [j], []. split.
    + bsplit. apply enum_body_iff. auto.
    + cbn [l_msgs l_enums set_enum set_enums set_msgs st1]. split; [|split; [|split]].
      * rewrite (upd_nth_same i _ m) by assumption. unfold grown, add_enum. now rewrite !app_nil_r.
      * constructor; [|constructor]. split; [unfold j; lia|]. unfold shows_enum; cbn. eapply upd_nth_same. apply nth_error_snoc.
      * constructor.
      * constructor; cbn; rewrite ?upd_nth_length, ?app_length; auto; try lia.
        -- intros q x Hq Hx. now rewrite upd_nth_other by auto.
        -- intros q x Hx. pose proof (nth_error_lt _ _ _ Hx). rewrite upd_nth_other by (unfold j; lia). now apply nth_error_keep.
  - intros fs os es ms oo rr (_ & _ & F & _). cbn in F. f2inv.
    match goal with H : enum_means _ _ |- _ => apply enum_body_iff in H as (_ & Hb) end. eapply H; eauto.
  - assumption.
Qed.

Definition msg_ok_at (e : selem) : Prop := forall ed st i m, at_msg ed st i m -> res ed st i m [e] (run st (walk_elem e)).
Lemma elems_ok l : Forall msg_ok_at l -> forall ed st i m, at_msg ed st i m -> res ed st i m l (run st (flat_map walk_elem l)).
Proof.
  induction 1 as [|x l Hx Fl IH]; intros ed st i m A.
  - cbn. exists [], [], [], [], [], [], [], []. split; [apply body_nil|]. unfold grown. rewrite !app_nil_r.
    replace (mkMR _ _ _ _ _ _ _ _) with m by now destruct m. split; [apply A|]. split; [constructor|]. split; [constructor|].
    constructor; auto.
  - cbn [flat_map]. rewrite run_app. specialize (Hx ed st i m A). destruct (run st (walk_elem x)) as [st1| |]; cbn [res] in Hx.
    + destruct Hx as (fs & os & es & ms & oo & rr & ei & mi & Hb & N1 & Fe & Fm & Sm).
      specialize (IH ed st1 i _ (same_at _ _ _ _ _ _ A Sm N1)). assert (Hl := Forall2_len _ _ _ (proj1 (proj2 Hb))).
      assert (EL : length (mr_oneofs (grown m ei mi fs os oo rr)) = length (mr_oneofs m) + length os) by (cbn; apply app_length).
      unfold res in IH |- *. rewrite EL in IH.
      destruct (run st1 (flat_map walk_elem l)) as [st2| |].
      * destruct IH as (fs2 & os2 & es2 & ms2 & oo2 & rr2 & ei2 & mi2 & Hb2 & N2 & Fe2 & Fm2 & Sm2).
        exists (fs ++ fs2), (os ++ os2), (es ++ es2), (ms ++ ms2), (oo ++ oo2), (rr ++ rr2), (ei ++ ei2), (mi ++ mi2).
        split; [now apply body_cons|]. split; [rewrite N2; unfold grown; cbn; now rewrite !app_assoc|].
        assert (L1 := s_mlen _ _ _ Sm). assert (L2 := s_elen _ _ _ Sm). assert (Li := nth_error_lt _ _ _ (proj1 (proj2 A))).
        split; [|split].
        -- apply Forall2_app; (eapply eshow_keep; [| |eassumption]); auto. intros q x0 _ Hq. eapply s_enums; eauto.
        -- apply Forall2_app; (eapply mshow_keep; [| | | |eassumption]); auto.
           ++ intros q x0 Hq Hx. eapply s_msgs; eauto. lia.
           ++ intros q x0 _ Hq. eapply s_enums; eauto.
        -- eapply same_trans; eauto.
      * intros fs2 os2 es2 ms2 oo2 rr2 (? & ? & ? & ? & ? & ? & ? & ? & ? & ? & ? & ? & _ & Hb2)%body_uncons. rewrite Hl in Hb2. eapply IH; eauto.
      * assumption.
    + intros fs2 os2 es2 ms2 oo2 rr2 (? & ? & ? & ? & ? & ? & ? & ? & ? & ? & ? & ? & Hb2 & _)%body_uncons. eapply Hx; eauto.
    + assumption.
Qed.

(** The body of a message whose object is the last one *)
Lemma body_msg ed n l fs os es ms oo rr : body ed 0 l fs os es ms oo rr -> msg_means ed (n, l) (TM n fs os es ms oo rr).
Proof. intros (A & B & C & D & E & F). now constructor. Qed.
Lemma msg_body ed n l t : msg_means ed (n, l) t -> exists fs os es ms oo rr, body ed 0 l fs os es ms oo rr.
Proof. intros H. inversion H; subst. do 6 eexists. repeat apply conj; eassumption. Qed.

Fixpoint elem_ok (e : selem) : msg_ok_at e.
Proof.
  destruct e as [lb f|k f|n l|e|n l|l|n c|rr|]; intros ed st i m A.
  - (* field *)
    cbn [walk_elem run step]. destruct (newField f None) as [x|] eqn:Ef.
    + apply newField_some in Ef as (F1 & F2 & F3 & F4 & F5 & F6 & F7 & F8 & F9).
      destruct lb as [[| |]|].
      * rewrite (with_msg_at _ _ _ _ _ A). eapply res_upd; [exact A | |]; [|apply grown_field].
        bsplit. repeat apply conj; cbn; auto; try (split; intros; discriminate); intros; discriminate.
      * destruct A as (A1 & A2 & A3 & A4). rewrite A4. destruct (str_eqb_spec ed editionProto2) as [->|N].
        -- rewrite (with_msg_at _ _ i m) by (repeat split; eauto). eapply res_upd; [repeat split; eauto | |]; [|apply grown_field].
           bsplit. repeat apply conj; cbn; auto; try (split; intros; discriminate); intros; discriminate.
        -- intros fs os es ms oo rr (F & _). cbn in F. f2inv. match goal with H : field_means _ _ _ |- _ => destruct H as (_ & _ & _ & _ & _ & _ & _ & _ & _ & Q) end.
           apply N. now apply Q.
      * rewrite (with_msg_at _ _ _ _ _ A). eapply res_upd; [exact A | |]; [|apply grown_field].
        bsplit. repeat apply conj; cbn; auto; try (split; intros; discriminate); intros; discriminate.
      * rewrite (with_msg_at _ _ _ _ _ A). eapply res_upd; [exact A | |]; [|apply grown_field].
        bsplit. repeat apply conj; cbn; auto; intros; congruence.
    + assert (R : res ed st i m [SmField lb f] LFatal) by (intros fs os es ms oo rr (F & _); cbn in F; f2inv; eapply newField_none; eauto).
      destruct lb as [[| |]|]; exact R.
  - (* map *)
    cbn [walk_elem run step]. destruct (newField f (Some k)) as [x|] eqn:Ef.
    + apply newField_some in Ef as (F1 & F2 & F3 & F4 & F5 & F6 & F7 & F8 & F9).
      rewrite (with_msg_at _ _ _ _ _ A). eapply res_upd; [exact A | |]; [|apply grown_field].
      bsplit. repeat apply conj; cbn; auto; intros; congruence.
    + intros fs os es ms oo rr (F & _). cbn in F. f2inv. eapply newField_none; eauto.
  - (* oneof *)
    cbn [walk_elem run step]. rewrite (with_msg_at _ _ _ _ _ A). set (m1 := add_oneof m (mkO n [] [])).
    pose proof (oneof_elems_ok ed l _ i m1 (mr_oneofs m) (mkO n [] []) (at_upd _ _ _ _ m1 A) eq_refl) as H.
    destruct (run _ (flat_map walk_oneof_elem l)) as [st2| |]; cbn [ores] in H.
    + destruct H as (fs & oo & Hf & Ho & ->). cbn [l_msgs set_msgs]. rewrite set_msgs_twice, upd_nth_twice.
      eapply res_upd with (fs := fs) (os := [mkO n oo fs]) (oo := []) (rr := []); [exact A| |].
      * bsplit; rewrite ?app_nil_r; auto. repeat apply conj; auto.
      * unfold ogrown, grown, m1, add_oneof; cbn. now rewrite !app_nil_r.
    + intros fs os es ms oo rr (_ & O & _). cbn in O. f2inv. match goal with H : oneof_means _ _ _ |- _ => destruct H as (_ & Q1 & Q2) end. eapply H; eauto.
    + assumption.
  - now apply enum_in_ok.
  - (* message *)
    assert (Fl : Forall msg_ok_at l) by (clear - elem_ok; induction l; constructor; auto).
    cbn [walk_elem run step]. pose proof A as ((s & S1) & N & En & Ed). rewrite S1. rewrite (with_msg_at _ _ _ _ _ A). cbn [l_msgs set_msgs].
    set (st1 := set_stack _ _). rewrite run_app. set (j := length (l_msgs st)).
    assert (Lj : length (upd_nth i (add_msg m j) (l_msgs st)) = j) by apply upd_nth_length.
    assert (A1 : at_msg ed st1 j (mkMR n (Some i) [] [] [] [] [] [])).
    { repeat split; auto. - cbn. eauto. - cbn [st1 l_msgs set_stack set_msgs]. fold j. rewrite nth_error_app2 by lia. now rewrite Lj, Nat.sub_diag. }
    pose proof (elems_ok l Fl ed st1 j _ A1) as H. destruct (run st1 (flat_map walk_elem l)) as [st2| |]; cbn [res] in H.
    + destruct H as (fs & os & es & ms & oo & rr & ei & mi & Hb & N2 & Fe & Fm & Sm). cbn [mr_oneofs length] in Hb.
      unfold grown in N2; cbn [mr_name mr_parent mr_enums mr_msgs mr_fields mr_oneofs mr_options mr_reserved app] in N2.
      assert (Li := nth_error_lt _ _ _ N). fold j in Li.
      assert (M1 : length (l_msgs st1) = S j) by (cbn; rewrite app_length, upd_nth_length; cbn; fold j; lia).
      cbn [run step]. rewrite (s_stack _ _ _ Sm). cbn [l_stack st1 set_stack].
      exists [], [], [], [TM n fs os es ms oo rr], [], [], [], [j]. split; [bsplit; now apply body_msg|].
      cbn [l_msgs set_stack].
      split; [|split; [|split]].
      * erewrite (s_msgs _ _ _ Sm) by ((lia || (cbn; apply nth_error_keep; eapply upd_nth_same; eassumption))).
        unfold grown, add_msg. now rewrite !app_nil_r.
      * constructor.
      * constructor; [|constructor]. econstructor; [unfold j; lia | exact N2 | exact Fe |].
        eapply mshow_keep; [| | | |exact Fm]; auto; rewrite ?M1; auto.
      * constructor; cbn; [now rewrite S1 | rewrite (s_enum _ _ _ Sm); reflexivity | exact (s_proto _ _ _ Sm) | | exact (s_elen _ _ _ Sm) | |].
        -- pose proof (s_mlen _ _ _ Sm). unfold j in *. lia.
        -- intros q x Hq Hx. pose proof (nth_error_lt _ _ _ Hx). apply (s_msgs _ _ _ Sm); [unfold j; lia|].
           cbn. apply nth_error_keep. now rewrite upd_nth_other by auto.
        -- intros q x Hx. now apply (s_enums _ _ _ Sm).
    + intros fs os es ms oo rr (_ & _ & _ & F & _). cbn in F. f2inv. match goal with H : msg_means _ _ _ |- _ => apply msg_body in H as (? & ? & ? & ? & ? & ? & Hb) end.
      eapply H; eauto.
    + assumption.
  - (* extend *)
    cbn [walk_elem]. rewrite extend_ok. apply res_none; [assumption|]. bsplit.
  - (* option *)
    cbn [walk_elem run step]. destruct (unmarshalConst c) as [v|] eqn:Ec; [destruct (verifyOption n v) eqn:Ev|].
    + rewrite (with_msg_at _ _ _ _ _ A). eapply res_upd; [exact A | |]; [|apply grown_option].
      bsplit. now apply statement_some.
    + intros fs os es ms oo rr (_ & _ & _ & _ & F & _). cbn in F. f2inv. eapply statement_bad; eauto.
    + intros fs os es ms oo rr (_ & _ & _ & _ & F & _). cbn in F. f2inv. eapply statement_none; eauto.
  - (* reserved *)
    cbn [walk_elem run step]. destruct (all read_range rr) as [r|] eqn:Er.
    + rewrite (with_msg_at _ _ _ _ _ A). eapply res_upd; [exact A | |]; [|apply grown_reserved].
      bsplit. rewrite app_nil_r. now apply ranges_some.
    + intros fs os es ms oo r (_ & _ & _ & _ & _ & F). cbn in F. rewrite app_nil_r in F. eapply ranges_none; eauto.
  - cbn. apply res_none; [assumption|]. bsplit.
Qed.

(** ** Services *)
Lemma set_services_twice st a b : set_services (set_services st a) b = set_services st b.
Proof. reflexivity. Qed.
Lemma set_services_self st : set_services st (p_services st) = st.
Proof. now destruct st. Qed.
Definition rpc_state st sv0 (s : service) ms (m : method) oo : state :=
  set_services st (sv0 ++ [mkSv (sv_name s) (ms ++ [mkMe (me_name m) (me_sreq m) (me_req m) (me_sret m) (me_ret m) (me_options m ++ oo)]) (sv_options s)]).
Lemma rpc_options_ok l : forall st sv0 s ms m, p_services st = sv0 ++ [mkSv (sv_name s) (ms ++ [m]) (sv_options s)] ->
  match run st (map (fun o => ExitOptionStatement RRpc (fst o) (snd o)) l) with
  | LOk st' => exists oo, Forall2 statement_means l oo /\ st' = rpc_state st sv0 s ms m oo
  | LFatal => forall oo, ~ Forall2 statement_means l oo
  | LPanic => False
  end.
Proof.
  induction l as [|[n c] l IH]; intros st sv0 s ms m P.
  - cbn. exists []. split; [constructor|]. unfold rpc_state. rewrite app_nil_r. replace (mkMe _ _ _ _ _ _) with m by now destruct m.
    rewrite <- P. symmetry. apply set_services_self.
  - cbn [map run step fst snd]. destruct (unmarshalConst c) as [v|] eqn:Ec; [destruct (verifyOption n v) eqn:Ev|].
    + rewrite P, on_last_snoc. cbn [sv_name sv_methods sv_options]. rewrite on_last_snoc.
      set (m1 := mkMe _ _ _ _ _ _). set (st1 := set_services _ _).
      specialize (IH st1 sv0 s ms m1 eq_refl). destruct (run st1 _) as [st2| |].
      * destruct IH as (oo & F & ->). exists ((n, v) :: oo). split; [constructor; [now apply statement_some|assumption]|].
        unfold rpc_state, st1, m1; cbn [me_name me_sreq me_req me_sret me_ret me_options]. now rewrite set_services_twice, <- app_assoc.
      * intros oo F. f2inv. eapply IH; eauto.
      * assumption.
    + intros oo F. f2inv. eapply statement_bad; eauto.
    + intros oo F. f2inv. eapply statement_none; eauto.
Qed.
Lemma stream_flags_ok r : rpc_ordered r ->
  stream_flags (snd (sr_req r)) (snd (sr_ret r)) (stream_tokens r) false false =
  (match sr_sreq r with Some _ => true | None => false end, match sr_sret r with Some _ => true | None => false end).
Proof.
  destruct r as [n sreq [req p0] sret [ret p1] oo]. unfold rpc_ordered, stream_tokens; cbn [sr_sreq sr_sret sr_req sr_ret snd]. intros (A & B & C).
  destruct sreq as [a|], sret as [b|]; cbn [app stream_flags];
  repeat match goal with |- context [?x <? ?y] => destruct (Nat.ltb_spec x y); try lia end; reflexivity.
Qed.
Definition sgrown (s : service) me oo : service := mkSv (sv_name s) (sv_methods s ++ me) (sv_options s ++ oo).
Definition sres st sv0 s l (r : lres) : Prop :=
  match r with
  | LOk st' => exists me oo, Forall2 method_means (service_rpcs l) me /\ Forall2 statement_means (service_options l) oo /\
      st' = set_services st (sv0 ++ [sgrown s me oo])
  | LFatal => forall me oo, Forall2 method_means (service_rpcs l) me -> ~ Forall2 statement_means (service_options l) oo
  | LPanic => False
  end.
Lemma service_elem_ok st sv0 s x : p_services st = sv0 ++ [s] -> Forall rpc_ordered (service_rpcs [x]) ->
  sres st sv0 s [x] (run st (walk_service_elem x)).
Proof.
  intros P W. destruct x as [n c|r|].
  - cbn [walk_service_elem run step]. destruct (unmarshalConst c) as [v|] eqn:Ec; [destruct (verifyOption n v) eqn:Ev|].
    + rewrite P, on_last_snoc. exists [], [(n, v)]. repeat apply conj; cbn.
      * constructor.
      * constructor; [now apply statement_some|constructor].
      * unfold sgrown. now rewrite app_nil_r.
    + intros me oo _ F. cbn in F. f2inv. eapply statement_bad; eauto.
    + intros me oo _ F. cbn in F. f2inv. eapply statement_none; eauto.
  - cbn in W. inversion W as [|? ? W1 _]; subst. cbn [walk_service_elem]. unfold walk_rpc. cbn [run step]. rewrite P, on_last_snoc.
    rewrite run_app. set (m := mkMe _ _ _ _ _ _). set (st1 := set_services _ _).
    pose proof (rpc_options_ok (sr_options r) st1 sv0 s (sv_methods s) m eq_refl) as H. destruct (run st1 _) as [st2| |].
    + destruct H as (oo & F & ->). unfold rpc_state. cbn [run step p_services set_services set_proto]. rewrite on_last_snoc.
      cbn [sv_name sv_methods sv_options]. rewrite on_last_snoc. cbn [me_sreq me_sret me_name me_options m app].
      rewrite (stream_flags_ok r W1). cbn [run].
      exists [mkMe (sr_name r) (match sr_sreq r with Some _ => true | None => false end) (fst (sr_req r))
                   (match sr_sret r with Some _ => true | None => false end) (fst (sr_ret r)) oo], [].
      repeat apply conj.
      * cbn. constructor; [|constructor]. repeat apply conj; cbn; auto.
        -- destruct (sr_sreq r); congruence.
        -- destruct (sr_sreq r); congruence.
        -- destruct (sr_sret r); congruence.
        -- destruct (sr_sret r); congruence.
      * constructor.
      * unfold sgrown. now rewrite app_nil_r.
    + intros me oo F _. cbn in F. f2inv. match goal with Q : method_means _ _ |- _ => destruct Q as (_ & _ & _ & _ & _ & Q) end. eapply H; eauto.
    + assumption.
  - cbn. exists [], []. split; [constructor|]. split; [constructor|]. unfold sgrown. rewrite !app_nil_r.
    replace (mkSv _ _ _) with s by now destruct s. rewrite <- P. symmetry. apply set_services_self.
Qed.
Lemma service_rpcs_cons e l : service_rpcs (e :: l) = service_rpcs [e] ++ service_rpcs l.
Proof. unfold service_rpcs. now rewrite (flat_cons _ e l). Qed.
Lemma service_options_cons e l : service_options (e :: l) = service_options [e] ++ service_options l.
Proof. unfold service_options. now rewrite (flat_cons _ e l). Qed.
Lemma service_elems_ok l : forall st sv0 s, p_services st = sv0 ++ [s] -> Forall rpc_ordered (service_rpcs l) ->
  sres st sv0 s l (run st (flat_map walk_service_elem l)).
Proof.
  induction l as [|x l IH]; intros st sv0 s P W.
  - cbn. exists [], []. split; [constructor|]. split; [constructor|]. unfold sgrown. rewrite !app_nil_r.
    replace (mkSv _ _ _) with s by now destruct s. rewrite <- P. symmetry. apply set_services_self.
  - cbn [flat_map]. rewrite run_app. rewrite (service_rpcs_cons x l) in W. apply Forall_app in W as [W1 W2].
    pose proof (service_elem_ok st sv0 s x P W1) as H. destruct (run st (walk_service_elem x)) as [st1| |]; cbn [sres] in H.
    + destruct H as (me & oo & Hf & Ho & ->).
      specialize (IH (set_services st (sv0 ++ [sgrown s me oo])) sv0 (sgrown s me oo) eq_refl W2).
      destruct (run _ (flat_map walk_service_elem l)) as [st2| |]; cbn [sres] in IH |- *.
      * destruct IH as (me2 & oo2 & Hf2 & Ho2 & ->). exists (me ++ me2), (oo ++ oo2).
        rewrite (service_rpcs_cons x l), (service_options_cons x l). split; [now apply Forall2_app|]. split; [now apply Forall2_app|].
        rewrite set_services_twice. unfold sgrown; cbn. now rewrite !app_assoc.
      * intros me2 oo2. rewrite (service_rpcs_cons x l), (service_options_cons x l).
        intros (? & ? & ? & ? & _)%Forall2_app_inv_l (? & ? & ? & ? & _)%Forall2_app_inv_l. eapply IH; eauto.
      * assumption.
    + intros me2 oo2. rewrite (service_rpcs_cons x l), (service_options_cons x l).
      intros (? & ? & ? & ? & _)%Forall2_app_inv_l (? & ? & ? & ? & _)%Forall2_app_inv_l. eapply H; eauto.
    + assumption.
Qed.

(** ** The definitions of a file *)
Definition top ed l oo im ms es sv : Prop :=
  Forall2 statement_means (file_options l) oo /\ Forall2 import_means (file_imports l) im /\
  Forall2 (msg_means ed) (file_msgs l) ms /\ Forall2 enum_means (file_enums l) es /\ Forall2 service_means (file_services l) sv.
(** The package, from what it was *)
Definition pkg (p0 : bytes) (l : list bytes) (p1 : bytes) : Prop :=
  match l with [] => p1 = p0 | [n] => p0 = [] /\ p1 = n | _ => False end.
Definition tdef_ok (d : stop) : Prop :=
  match d with StPackage n => n <> [] | StService _ l => Forall rpc_ordered (service_rpcs l) | _ => True end.
Record tsame (st st' : state) oo im mi ei sv : Prop := mkTS {
  t_stack : l_stack st' = []; t_enum : l_enum st' = None; t_ed : p_edition st' = p_edition st;
  t_oo : p_options st' = p_options st ++ oo; t_im : p_imports st' = p_imports st ++ im;
  t_ms : p_msgs st' = p_msgs st ++ mi; t_es : p_enums st' = p_enums st ++ ei; t_sv : p_services st' = p_services st ++ sv;
  t_hm : forall j x, nth_error (l_msgs st) j = Some x -> nth_error (l_msgs st') j = Some x;
  t_he : forall j x, nth_error (l_enums st) j = Some x -> nth_error (l_enums st') j = Some x }.
Definition tres st l (r : lres) : Prop :=
  match r with
  | LOk st' => exists oo im ms es sv mi ei,
      top (p_edition st) l oo im ms es sv /\ pkg (p_package st) (file_packages l) (p_package st') /\
      Forall2 (mshow 0 0 st' None) mi ms /\ Forall2 (eshow 0 st' None) ei es /\ tsame st st' oo im mi ei sv
  | LFatal => forall oo im ms es sv p, top (p_edition st) l oo im ms es sv -> ~ pkg (p_package st) (file_packages l) p
  | LPanic => False
  end.
Ltac tsplit := refine (conj _ (conj _ (conj _ (conj _ _)))); cbn [file_options file_imports file_msgs file_enums file_services flat_map app];
  repeat first [apply Forall2_nil | apply Forall2_cons].
Ltac tfin := constructor; cbn; rewrite ?app_nil_r; auto.
Lemma top_ok st d : l_stack st = [] -> l_enum st = None -> tdef_ok d -> tres st [d] (run st (walk_top d)).
Proof.
  intros A B W. destruct d as [pub lit|n|n c|n l|[n l]|l|n l|].
  - cbn [walk_top run step]. destruct (UnmarshalString lit) as [v|] eqn:E.
    + exists [], [(v, pub)], [], [], [], [], []. split; [tsplit; now split|]. split; [reflexivity|]. split; [constructor|]. split; [constructor|]. tfin.
    + intros oo im ms es sv p (_ & F & _) _. cbn in F. f2inv. match goal with Q : import_means _ _ |- _ => destruct Q as [Q _] end. cbn in *. congruence.
  - cbn [walk_top run step]. destruct (p_package st) as [|a l] eqn:E.
    + exists [], [], [], [], [], [], []. split; [tsplit|]. split; [cbn; now rewrite E|]. split; [constructor|]. split; [constructor|]. tfin.
    + intros oo im ms es sv p _ F. cbn in F. rewrite E in F. destruct F; discriminate.
  - cbn [walk_top run step]. destruct (unmarshalConst c) as [v|] eqn:Ec; [destruct (verifyOption n v) eqn:Ev|].
    + exists [(n, v)], [], [], [], [], [], []. split; [tsplit; now apply statement_some|]. split; [reflexivity|]. split; [constructor|]. split; [constructor|]. tfin.
    + intros oo im ms es sv p (F & _) _. cbn in F. f2inv. eapply statement_bad; eauto.
    + intros oo im ms es sv p (F & _) _. cbn in F. f2inv. eapply statement_none; eauto.
  - cbn [walk_top run step]. rewrite run_app. set (j := length (l_msgs st)). set (st1 := set_stack _ _).
    assert (A1 : at_msg (p_edition st) st1 j (mkMR n None [] [] [] [] [] [])).
    { repeat split; auto. - cbn. eauto. - cbn. apply nth_error_snoc. }
    assert (Fl : Forall msg_ok_at l) by (clear; induction l; constructor; auto; apply elem_ok).
    pose proof (elems_ok l Fl _ st1 j _ A1) as H. destruct (run st1 (flat_map walk_elem l)) as [st2| |]; cbn [res] in H.
    + destruct H as (fs & os & es & ms & oo & rr & ei & mi & Hb & N2 & Fe & Fm & Sm). cbn [mr_oneofs length] in Hb.
      unfold grown in N2; cbn [mr_name mr_parent mr_enums mr_msgs mr_fields mr_oneofs mr_options mr_reserved app] in N2.
      cbn [run step]. rewrite (s_stack _ _ _ Sm). cbn [l_stack st1 set_stack]. pose proof (s_proto _ _ _ Sm) as PR. unfold proto_of in PR; cbn in PR.
      injection PR as P1 P2 P3 P4 P5 P6 P7.
      exists [], [], [TM n fs os es ms oo rr], [], [], [j], []. split; [tsplit; now apply body_msg|].
      split; [cbn; congruence|]. split; [|split; [constructor|]].
      * constructor; [|constructor]. econstructor; [lia | exact N2 | |].
        -- eapply eshow_keep; [| |exact Fe]; auto with arith.
        -- eapply mshow_keep; [| | | |exact Fm]; auto with arith.
      * constructor; cbn; rewrite ?app_nil_r; auto.
        -- rewrite (s_enum _ _ _ Sm). exact B.
        -- intros q x Hx. pose proof (nth_error_lt _ _ _ Hx). apply (s_msgs _ _ _ Sm); [unfold j; lia|]. cbn. now apply nth_error_keep.
        -- intros q x Hx. now apply (s_enums _ _ _ Sm).
    + intros oo im ms es sv p (_ & _ & F & _) _. cbn in F. f2inv. match goal with H : msg_means _ _ _ |- _ => apply msg_body in H as (? & ? & ? & ? & ? & ? & Hb) end.
      eapply H; eauto.
    + assumption.
  - cbn [walk_top]. unfold walk_enum. cbn [sen_name sen_elems run step]. rewrite run_app. set (st1 := set_enum _ _). set (j := length (l_enums st)).
    assert (E1 : l_enum st1 = Some j) by reflexivity.
    assert (E2 : nth_error (l_enums st1) j = Some (mkER n None [] [] [])) by (cbn; apply nth_error_snoc).
    pose proof (enum_elems_ok l st1 j _ E1 E2) as H. destruct (run st1 (flat_map walk_enum_elem l)) as [st2| |]; cbn [eres] in H.
    + destruct H as (fs & oo & rr & Hb & ->). cbn [run step]. unfold egrown; cbn [er_name er_parent er_fields er_options er_reserved app].
      exists [], [], [], [TE n fs oo rr], [], [], [j]. split; [tsplit; apply enum_body_iff; auto|].
      split; [reflexivity|]. split; [constructor|]. split.
      * constructor; [|constructor]. split; [lia|]. unfold shows_enum; cbn. eapply upd_nth_same. apply nth_error_snoc.
      * constructor; cbn; rewrite ?app_nil_r; auto.
        intros q x Hx. pose proof (nth_error_lt _ _ _ Hx). rewrite upd_nth_other by (unfold j; lia). now apply nth_error_keep.
    + intros oo im ms es sv p (_ & _ & _ & F & _) _. cbn in F. f2inv.
      match goal with H : enum_means _ _ |- _ => apply enum_body_iff in H as (_ & Hb) end. eapply H; eauto.
    + assumption.
  - cbn [walk_top]. rewrite extend_ok. exists [], [], [], [], [], [], []. split; [tsplit|]. split; [reflexivity|]. split; [constructor|]. split; [constructor|]. tfin.
  - cbn [walk_top run step]. set (st1 := set_services _ _).
    pose proof (service_elems_ok l st1 (p_services st) (mkSv n [] []) eq_refl W) as H. destruct (run st1 _) as [st2| |]; cbn [sres] in H.
    + destruct H as (me & oo & Hf & Ho & ->). exists [], [], [], [], [mkSv n me oo], [], [].
      split; [tsplit; repeat apply conj; auto|]. split; [reflexivity|]. split; [constructor|]. split; [constructor|]. tfin.
    + intros oo im ms es sv p (_ & _ & _ & _ & F) _. cbn in F. f2inv. match goal with Q : service_means _ _ |- _ => destruct Q as (_ & Q1 & Q2) end.
      eapply H; eauto.
    + assumption.
  - cbn. exists [], [], [], [], [], [], []. split; [tsplit|]. split; [reflexivity|]. split; [constructor|]. split; [constructor|]. tfin.
Qed.
Lemma top_cons ed d l oo im ms es sv oo2 im2 ms2 es2 sv2 : top ed [d] oo im ms es sv -> top ed l oo2 im2 ms2 es2 sv2 ->
  top ed (d :: l) (oo ++ oo2) (im ++ im2) (ms ++ ms2) (es ++ es2) (sv ++ sv2).
Proof.
  intros (A1 & A2 & A3 & A4 & A5) (B1 & B2 & B3 & B4 & B5). unfold top, file_options, file_imports, file_msgs, file_enums, file_services.
  repeat rewrite (flat_cons _ d l). repeat apply conj; apply Forall2_app; assumption.
Qed.
Lemma top_uncons ed d l oo im ms es sv : top ed (d :: l) oo im ms es sv ->
  exists oo1 im1 ms1 es1 sv1 oo2 im2 ms2 es2 sv2, top ed [d] oo1 im1 ms1 es1 sv1 /\ top ed l oo2 im2 ms2 es2 sv2.
Proof.
  unfold top, file_options, file_imports, file_msgs, file_enums, file_services.
  repeat rewrite (flat_cons _ d l). intros (A1 & A2 & A3 & A4 & A5).
  apply Forall2_app_inv_l in A1 as (? & ? & ? & ? & _), A2 as (? & ? & ? & ? & _), A3 as (? & ? & ? & ? & _),
    A4 as (? & ? & ? & ? & _), A5 as (? & ? & ? & ? & _).
  do 10 eexists; split; repeat apply conj; eassumption.
Qed.
Lemma packages_cons d l : file_packages (d :: l) = file_packages [d] ++ file_packages l.
Proof. unfold file_packages. now rewrite (flat_cons _ d l). Qed.
Lemma packages_one d : file_packages [d] = [] \/ exists n, d = StPackage n /\ file_packages [d] = [n].
Proof. destruct d; cbn; eauto. Qed.
Lemma pkg_split d l p0 p1 p2 : tdef_ok d -> pkg p0 (file_packages [d]) p1 ->
  (pkg p1 (file_packages l) p2 <-> pkg p0 (file_packages (d :: l)) p2).
Proof.
  intros W H. rewrite packages_cons. destruct (packages_one d) as [E|(n & -> & E)]; rewrite E in *; cbn in H |- *; [subst; reflexivity|].
  destruct H as [-> ->]. cbn in W. destruct (file_packages l) as [|a [|b r]]; cbn; intuition congruence.
Qed.
Lemma tops_ok l : forall st, l_stack st = [] -> l_enum st = None -> Forall tdef_ok l -> tres st l (run st (flat_map walk_top l)).
Proof.
  induction l as [|d l IH]; intros st A B W.
  - cbn. exists [], [], [], [], [], [], []. split; [tsplit|]. split; [reflexivity|]. split; [constructor|]. split; [constructor|]. tfin.
  - cbn [flat_map]. rewrite run_app. inversion W as [|? ? W1 W2]; subst. pose proof (top_ok st d A B W1) as H.
    destruct (run st (walk_top d)) as [st1| |]; cbn [tres] in H.
    + destruct H as (oo & im & ms & es & sv & mi & ei & Ht & Hp & Fm & Fe & [T1 T2 T3 T4 T5 T6 T7 T8 T9 T10]).
      specialize (IH st1 T1 T2 W2). destruct (run st1 (flat_map walk_top l)) as [st2| |]; cbn [tres] in IH |- *.
      * destruct IH as (oo2 & im2 & ms2 & es2 & sv2 & mi2 & ei2 & Ht2 & Hp2 & Fm2 & Fe2 & [U1 U2 U3 U4 U5 U6 U7 U8 U9 U10]).
        rewrite T3 in Ht2.
        exists (oo ++ oo2), (im ++ im2), (ms ++ ms2), (es ++ es2), (sv ++ sv2), (mi ++ mi2), (ei ++ ei2).
        split; [now apply top_cons|]. split; [now apply (pkg_split d l _ _ _ W1 Hp)|]. split; [|split].
        -- apply Forall2_app; [|assumption]. eapply mshow_keep; [| | | |exact Fm]; auto.
        -- apply Forall2_app; [|assumption]. eapply eshow_keep; [| |exact Fe]; auto.
        -- constructor; auto; try congruence; rewrite ?app_assoc; congruence.
      * intros oo2 im2 ms2 es2 sv2 p (? & ? & ? & ? & ? & ? & ? & ? & ? & ? & _ & Ht2)%top_uncons Hp2.
        apply (pkg_split d l _ _ _ W1 Hp) in Hp2. rewrite <- T3 in Ht2. eapply IH; eauto.
      * assumption.
    + intros oo2 im2 ms2 es2 sv2 p (? & ? & ? & ? & ? & ? & ? & ? & ? & ? & Ht2 & _)%top_uncons Hp2.
      destruct (packages_one d) as [E|(n & -> & E)].
      * eapply H; [eassumption|]. rewrite E. reflexivity.
      * eapply H with (p := n); [eassumption|]. rewrite packages_cons, E in Hp2. rewrite E. cbn in Hp2 |- *. destruct (file_packages l); [tauto|contradiction].
    + assumption.
Qed.

Fixpoint mshow_shows lom loe st p i t (H : mshow lom loe st p i t) {struct H} : shows_msg st p i t.
Proof.
  destruct H as [p i n fs os es ms oo rr ei mi L N Fe Fm]. econstructor; [exact N| |].
  - clear - Fe. induction Fe as [|j t ei es [A B] Fe IH]; constructor; auto.
  - clear - Fm mshow_shows. induction Fm as [|j t mi ms A Fm IH]; constructor; auto. eapply mshow_shows; eauto.
Qed.
Lemma known_iff v : known_edition v = true <-> v = bs "proto2" \/ v = bs "proto3" \/ v = bs "2023".
Proof.
  unfold known_edition. rewrite !Bool.orb_true_iff.
  destruct (str_eqb_spec v (bs "proto2")), (str_eqb_spec v (bs "proto3")), (str_eqb_spec v (bs "2023")); intuition (discriminate || congruence).
Qed.
Lemma package_pkg l v : package_means l v <-> pkg [] l v.
Proof. destruct l as [|a [|b r]]; cbn; tauto. Qed.
Theorem load_ok f : parsed f ->
  match load f with
  | LOk st => exists t, file_means f t /\ shows_file st t
  | LFatal => forall t, ~ file_means f t
  | LPanic => False
  end.
Proof.
  intros W. unfold load, walk_file.
  assert (K : forall ed, edition_means (sfl_edition f) ed ->
    match run (set_proto state0 ed [] [] [] [] [] []) (flat_map walk_top (sfl_defs f)) with
    | LOk st => exists t, file_means f t /\ shows_file st t
    | LFatal => forall t, tf_edition t = ed -> ~ file_means f t
    | LPanic => False
    end).
  { intros ed He. pose proof (tops_ok (sfl_defs f) (set_proto state0 ed [] [] [] [] [] []) eq_refl eq_refl W) as H.
    destruct (run _ _) as [st| |]; cbn [tres] in H.
    - destruct H as (oo & im & ms & es & sv & mi & ei & (H1 & H2 & H3 & H4 & H5) & Hp & Fm & Fe & [T1 T2 T3 T4 T5 T6 T7 T8 _ _]).
      cbn in T3, T4, T5, T6, T7, T8, H3, Hp.
      exists (TF ed (p_package st) oo im ms es sv). split.
      + repeat apply conj; cbn; auto. now apply package_pkg.
      + repeat apply conj; cbn; auto.
        * rewrite T6. clear - Fm. induction Fm; constructor; auto. eapply mshow_shows; eauto.
        * rewrite T7. clear - Fe. induction Fe as [|? ? ? ? [? ?]]; constructor; auto.
    - intros t <- (M1 & M2 & M3 & M4 & M5 & M6 & M7). eapply H; [repeat apply conj; eassumption|]. cbn. apply package_pkg. exact M2.
    - assumption. }
  destruct (sfl_edition f) as [lit|] eqn:Ee; cbn [app run step].
  - destruct (UnmarshalString lit) as [v|] eqn:Ev.
    + destruct (known_edition v) eqn:Ek.
      * specialize (K v). cbn in K. specialize (K (conj Ev (proj1 (known_iff v) Ek))). cbn in K |- *.
        destruct (run _ _); auto. intros t M. apply (K t); [|assumption]. destruct M as (M & _). rewrite Ee in M. cbn in M. destruct M; congruence.
      * intros t (M & _). rewrite Ee in M. cbn in M. destruct M as [M1 M2]. apply known_iff in M2. congruence.
    + intros t (M & _). rewrite Ee in M. cbn in M. destruct M; congruence.
  - specialize (K (bs "proto2") eq_refl). change (set_proto state0 (bs "proto2") [] [] [] [] [] []) with state0 in K.
    destruct (run _ _); auto. intros t M. apply (K t); [|assumption]. destruct M as (M & _). rewrite Ee in M. exact M.
Qed.

(** ** Every object is listed once *)
Lemma flat_upd {A B} (f : A -> list B) i m m' l : nth_error l i = Some m -> f m' = f m -> flat_map f (upd_nth i m' l) = flat_map f l.
Proof. revert i; induction l; intros [|i] N E; cbn in *; try discriminate; [injection N as ->; now rewrite E|]. f_equal; auto. Qed.
Lemma flat_upd_add {A B} (f : A -> list B) i m m' x l : nth_error l i = Some m -> f m' = f m ++ [x] ->
  Permutation (flat_map f (upd_nth i m' l)) (flat_map f l ++ [x]).
Proof.
  revert i; induction l; intros [|i] N E; cbn in *; try discriminate.
  - injection N as ->. rewrite E, <- !app_assoc. apply Permutation_app_head, Permutation_app_comm.
  - rewrite <- app_assoc. apply Permutation_app_head. now apply IHl.
Qed.
Lemma with_msg_once st k st' : (forall m m', k m = Some m' -> mr_msgs m' = mr_msgs m /\ mr_enums m' = mr_enums m) ->
  with_msg st k = LOk st' -> listed_once st -> listed_once st'.
Proof.
  intros K H [A B]. unfold with_msg in H. destruct (l_stack st); [discriminate|]. destruct (nth_error (l_msgs st) n) as [m|] eqn:N; [|discriminate].
  destruct (k m) as [m'|] eqn:Ek; [|discriminate]. injection H as <-. apply K in Ek as [E1 E2]. unfold listed_once; cbn.
  rewrite (flat_upd _ _ _ _ _ N E1), (flat_upd _ _ _ _ _ N E2), upd_nth_length. auto.
Qed.
Lemma with_enum_once st k st' : with_enum st k = LOk st' -> listed_once st -> listed_once st'.
Proof.
  intros H [A B]. unfold with_enum in H. destruct (l_enum st); [|discriminate]. destruct (nth_error (l_enums st) n); [|discriminate].
  injection H as <-. unfold listed_once; cbn. rewrite upd_nth_length. auto.
Qed.
Lemma perm_snoc {A} (a b c : list A) x : Permutation (a ++ b) c -> Permutation (a ++ b ++ [x]) (c ++ [x]).
Proof. intros H. rewrite app_assoc. now apply Permutation_app_tail. Qed.
Lemma perm_snoc2 {A} (a b c : list A) x : Permutation (a ++ b) c -> Permutation ((a ++ [x]) ++ b) (c ++ [x]).
Proof. intros H. rewrite <- app_assoc. rewrite <- (perm_snoc a b c x H). apply Permutation_app_head, Permutation_app_comm. Qed.
Lemma seq_snoc n : seq 0 (n + 1) = seq 0 n ++ [n].
Proof. now rewrite seq_app. Qed.
Ltac kfin := intros ? ? KK; cbv beta zeta in KK; repeat match type of KK with context [match ?x with _ => _ end] => destruct x; try discriminate end; injection KK as <-; split; reflexivity.
Lemma step_once st e st' : step st e = LOk st' -> listed_once st -> listed_once st'.
Proof.
  intros H L. pose proof L as [A B]. destruct e; cbn [step] in H.
  - destruct p; try discriminate.
    + injection H as <-. unfold listed_once; cbn. rewrite !flat_map_app, app_length; cbn [flat_map mr_msgs mr_enums length app].
      rewrite !app_nil_r, seq_snoc. split; [|exact B]. now apply perm_snoc2.
    + destruct (l_stack st) as [|j s] eqn:S1; [discriminate|]. unfold with_msg in H. rewrite S1 in H.
      destruct (nth_error (l_msgs st) j) as [m|] eqn:N; [|discriminate]. injection H as <-.
      unfold listed_once; cbn. rewrite !flat_map_app, app_length, upd_nth_length; cbn [flat_map mr_msgs mr_enums length app].
      rewrite !app_nil_r, seq_snoc. rewrite (flat_upd mr_enums _ m (add_msg m (length (l_msgs st))) _ N eq_refl).
      split; [|exact B]. rewrite (flat_upd_add mr_msgs _ m (add_msg m (length (l_msgs st))) (length (l_msgs st)) _ N eq_refl). now apply perm_snoc.
  - destruct (l_stack st); [discriminate|]. injection H as <-. exact L.
  - destruct p; try discriminate.
    + injection H as <-. unfold listed_once; cbn. rewrite app_length; cbn [length]. rewrite seq_snoc. split; [exact A|]. now apply perm_snoc2.
    + destruct (l_stack st) as [|j s] eqn:S1; [discriminate|]. unfold with_msg in H. rewrite S1 in H.
      destruct (nth_error (l_msgs st) j) as [m|] eqn:N; [|discriminate]. injection H as <-.
      unfold listed_once; cbn. rewrite app_length, upd_nth_length; cbn [length]. rewrite seq_snoc.
      rewrite (flat_upd mr_msgs _ m (add_enum m (length (l_enums st))) _ N eq_refl).
      split; [exact A|]. rewrite (flat_upd_add mr_enums _ m (add_enum m (length (l_enums st))) (length (l_enums st)) _ N eq_refl). now apply perm_snoc.
  - injection H as <-. exact L.
  - destruct (read_enum_field _) as [[? ?]|]; [|discriminate]. destruct (read_options _); [|discriminate]. eapply with_enum_once; eauto.
  - assert (K : forall x, with_msg st (fun m => Some (add_field m x)) = LOk st' -> listed_once st').
    { intros x Hx. eapply with_msg_once; [|exact Hx|exact L]. kfin. }
    destruct p; try (injection H as <-; exact L); (destruct (newField f None); [|discriminate]);
      destruct l as [[| |]|]; try (destruct (str_eqb _ _); [|discriminate]); eapply K; exact H.
  - destruct (newField f None); [|discriminate]. eapply with_msg_once; [|exact H|exact L]. kfin.
  - destruct (newField f (Some k)); [|discriminate]. eapply with_msg_once; [|exact H|exact L]. kfin.
  - eapply with_msg_once; [|exact H|exact L]. kfin.
  - destruct (unmarshalConst c); [|discriminate]. destruct (verifyOption n b); [|discriminate].
    destruct p; try (injection H as <-; exact L).
    + eapply with_msg_once; [|exact H|exact L]. kfin.
    + eapply with_msg_once; [|exact H|exact L]. kfin.
    + eapply with_enum_once; eauto.
    + destruct (on_last _ _); [|discriminate]. injection H as <-. exact L.
    + destruct (on_last _ (p_services st)); [|discriminate]. injection H as <-. exact L.
  - destruct (all read_range rr); [|discriminate]. destruct p; try (injection H as <-; exact L).
    + eapply with_msg_once; [|exact H|exact L]. kfin.
    + eapply with_enum_once; eauto.
  - injection H as <-. exact L.
  - destruct (on_last _ _); [|discriminate]. injection H as <-. exact L.
  - destruct (on_last _ (p_services st)); [|discriminate]. injection H as <-. exact L.
  - destruct (UnmarshalString lit); [|discriminate]. destruct (known_edition _); [|discriminate]. injection H as <-. exact L.
  - destruct (p_package st); [|discriminate]. injection H as <-. exact L.
  - destruct (UnmarshalString lit); [|discriminate]. injection H as <-. exact L.
Qed.
Lemma run_once evs : forall st st', run st evs = LOk st' -> listed_once st -> listed_once st'.
Proof.
  induction evs as [|e evs IH]; intros st st' H L; cbn in H; [congruence|]. destruct (step st e) as [st1| |] eqn:E; try discriminate.
  eapply IH; eauto. eapply step_once; eauto.
Qed.

(** ** The tree of a file is unique *)
Lemma Forall2_fun {A B} (P : A -> B -> Prop) : (forall a b c, P a b -> P a c -> b = c) -> forall l r r', Forall2 P l r -> Forall2 P l r' -> r = r'.
Proof. intros F l r r' H. revert r'. induction H as [|a b l r Hab H IH]; intros r' H'; inversion H'; subst; f_equal; eauto. Qed.
Lemma option_fun a b c : option_means a b -> option_means a c -> b = c.
Proof. destruct a, b, c; unfold option_means; cbn. intros [-> A] [-> B]. congruence. Qed.
Lemma statement_fun a b c : statement_means a b -> statement_means a c -> b = c.
Proof. intros [A _] [B _]. eapply option_fun; eauto. Qed.
Lemma range_fun a b c : range_means a b -> range_means a c -> b = c.
Proof. intros A B. apply ranges_iff in A, B. congruence. Qed.
Lemma bool_iff (a b : bool) P : (a = true <-> P) -> (b = true <-> P) -> a = b.
Proof. intros A B. destruct a, b; auto; [symmetry; apply B; now apply A | apply A; now apply B]. Qed.
Lemma field_fun ed a b c : field_means ed a b -> field_means ed a c -> b = c.
Proof.
  destruct a as [[[lb key] i] f], b, c; unfold field_means; cbn.
  intros (-> & -> & -> & -> & A5 & A6 & A7 & A8 & A9 & _) (-> & -> & -> & -> & B5 & B6 & B7 & B8 & B9 & _).
  f_equal; try congruence; try (eapply bool_iff; eassumption). eapply Forall2_fun; [exact option_fun| |]; eassumption.
Qed.
Lemma oneof_fun ed a b c : oneof_means ed a b -> oneof_means ed a c -> b = c.
Proof.
  destruct a as [[i n] l], b, c; unfold oneof_means; cbn. intros (-> & A2 & A3) (-> & B2 & B3). f_equal.
  - eapply Forall2_fun; [exact statement_fun| |]; eassumption.
  - eapply Forall2_fun; [exact (field_fun ed)| |]; eassumption.
Qed.
Lemma enumfield_fun a b c : enumfield_means a b -> enumfield_means a c -> b = c.
Proof.
  destruct a as [[[n neg] lit] oo], b, c; unfold enumfield_means; cbn. intros (-> & (v & V & ->) & A3) (-> & (w & V' & ->) & B3).
  assert (w = v) by congruence. subst. f_equal. eapply Forall2_fun; [exact option_fun| |]; eassumption.
Qed.
Lemma enum_fun a b c : enum_means a b -> enum_means a c -> b = c.
Proof.
  destruct a, b, c; unfold enum_means; cbn. intros (-> & A2 & A3 & A4) (-> & B2 & B3 & B4). f_equal.
  - eapply Forall2_fun; [exact enumfield_fun| |]; eassumption.
  - eapply Forall2_fun; [exact statement_fun| |]; eassumption.
  - eapply Forall2_fun; [exact range_fun| |]; eassumption.
Qed.
Fixpoint msg_fun ed a b c (H : msg_means ed a b) {struct H} : msg_means ed a c -> b = c.
Proof.
  intros H'. destruct H as [n l fs os es ms oo rr A1 A2 A3 A4 A5 A6]. inversion H' as [n' l' fs' os' es' ms' oo' rr' B1 B2 B3 B4 B5 B6]; subst. f_equal.
  - eapply Forall2_fun; [exact (field_fun ed)| |]; eassumption.
  - eapply Forall2_fun; [exact (oneof_fun ed)| |]; eassumption.
  - eapply Forall2_fun; [exact enum_fun| |]; eassumption.
  - clear - A4 B4 msg_fun. revert ms' B4. induction A4 as [|x y r1 r2 Hxy A4 IH]; intros ms' B4; inversion B4; subst; f_equal; eauto.
  - eapply Forall2_fun; [exact statement_fun| |]; eassumption.
  - eapply Forall2_fun; [exact range_fun| |]; eassumption.
Qed.
Lemma method_fun a b c : method_means a b -> method_means a c -> b = c.
Proof.
  destruct a, b, c; unfold method_means; cbn. intros (-> & -> & -> & A4 & A5 & A6) (-> & -> & -> & B4 & B5 & B6).
  f_equal; try (eapply bool_iff; eassumption). eapply Forall2_fun; [exact statement_fun| |]; eassumption.
Qed.
Lemma service_fun a b c : service_means a b -> service_means a c -> b = c.
Proof.
  destruct a, b, c; unfold service_means; cbn. intros (-> & A2 & A3) (-> & B2 & B3). f_equal.
  - eapply Forall2_fun; [exact method_fun| |]; eassumption.
  - eapply Forall2_fun; [exact statement_fun| |]; eassumption.
Qed.
Lemma import_fun a b c : import_means a b -> import_means a c -> b = c.
Proof. destruct a, b, c; unfold import_means; cbn. intros (A1 & ->) (B1 & ->). congruence. Qed.
Lemma file_fun f t t' : file_means f t -> file_means f t' -> t = t'.
Proof.
  destruct f as [e l], t as [ed1 a1 a2 a3 a4 a5 a6], t' as [ed2 b1 b2 b3 b4 b5 b6]; unfold file_means; cbn [sfl_edition sfl_defs tf_edition tf_package tf_options tf_imports tf_msgs tf_enums tf_services].
  intros (A1 & A2 & A3 & A4 & A5 & A6 & A7) (B1 & B2 & B3 & B4 & B5 & B6 & B7).
  assert (ed2 = ed1) by (destruct e; cbn in A1, B1; [destruct A1, B1|]; congruence). subst. f_equal.
  - destruct (file_packages l) as [|? [|? ?]]; cbn in A2, B2; solve [contradiction | subst; reflexivity].
  - eapply Forall2_fun; [exact statement_fun| |]; eassumption.
  - eapply Forall2_fun; [exact import_fun| |]; eassumption.
  - eapply Forall2_fun; [exact (msg_fun ed1)| |]; eassumption.
  - eapply Forall2_fun; [exact enum_fun| |]; eassumption.
  - eapply Forall2_fun; [exact service_fun| |]; eassumption.
Qed.

(** ** The fields of a oneof *)
Lemma oneofs_filter : forall ed n l fs os es ms oo rr i o,
  msg_means ed (n, l) (TM n fs os es ms oo rr) -> nth_error os i = Some o ->
  on_fields o = filter (fun x => match fl_oneof x with Some j => j =? i | None => false end) fs.
Proof.
  intros ed n l fs os es ms oo rr i o H. inversion H as [? ? ? ? ? ? ? ? A1 A2 _ _ _ _]; subst. clear H.
  change i with (0 + i) at 2.
  revert A1 A2. generalize 0 as k. intros k A1 A2. revert k fs os i A1 A2.
  assert (G1 : forall k l fs i, Forall2 (field_means ed) (msg_fields k l) fs -> i < k ->
            filter (fun x => match fl_oneof x with Some j => j =? i | None => false end) fs = []).
  { intros k l0 fs i F Hi. assert (G : Forall (fun s => match snd (fst s) with Some j => k <= j | None => True end) (msg_fields k l0)).
    { revert k Hi F. clear. intros k _ _. revert k. induction l0 as [|e l0 IH]; intros k; [constructor|]. destruct e; cbn [msg_fields]; auto; try (constructor; cbn; auto; fail).
      apply Forall_app. split.
      - unfold oneof_fields. match goal with |- Forall _ (flat_map _ ?x) => induction x as [|[] r IHr] end; cbn; auto. constructor; cbn; auto.
      - specialize (IH (S k)). eapply Forall_impl; [|exact IH]. intros [[[? ?] [?|]] ?]; cbn; auto with arith. }
    induction F as [|[[[lb key] j] f] x r fs Hx F IH]; [reflexivity|]. inversion G as [|? ? G1 G2]; subst. cbn in G1 |- *.
    destruct Hx as (_ & _ & _ & -> & _). destruct j as [j|]; [|auto]. destruct (Nat.eqb_spec j i); [exfalso; subst; apply (Nat.lt_irrefl i); eapply Nat.lt_le_trans; eassumption|auto]. }
  assert (G2 : forall k l fs, Forall2 (field_means ed) (oneof_fields k l) fs ->
            filter (fun x => match fl_oneof x with Some j => j =? k | None => false end) fs = fs /\
            forall i, i <> k -> filter (fun x => match fl_oneof x with Some j => j =? i | None => false end) fs = []).
  { intros k l0. induction l0 as [|e l0 IH]; intros fs F.
    - inversion F; subst. auto.
    - destruct e; cbn in F; [apply IH; exact F|]. inversion F as [|? x ? r Hx Hr]; subst. destruct Hx as (_ & _ & _ & E & _).
      destruct (IH _ Hr) as [I1 I2]. cbn. rewrite E, Nat.eqb_refl, I1. split; [reflexivity|]. intros i Hi.
      destruct (Nat.eqb_spec k i); [congruence|auto]. }
  induction l as [|e l IH]; intros k fs os i A1 A2 Ho.
  - inversion A2; subst. destruct i; discriminate.
  - destruct e; cbn [msg_fields msg_oneofs] in A1, A2; try (eapply IH; eassumption).
    + inversion A1 as [|? x ? r Hx Hr]; subst. destruct Hx as (_ & _ & _ & E & _). cbn. rewrite E. eapply IH; eassumption.
    + inversion A1 as [|? x ? r Hx Hr]; subst. destruct Hx as (_ & _ & _ & E & _). cbn. rewrite E. eapply IH; eassumption.
    + apply Forall2_app_inv_l in A1 as (f1 & f2 & F1 & F2 & ->). inversion A2 as [|? x ? r Hx Hr]; subst.
      destruct Hx as (_ & _ & Hf). rewrite filter_app. destruct (G2 _ _ _ F1) as [I1 I2]. destruct i as [|i].
      * cbn in Ho. injection Ho as <-. rewrite Nat.add_0_r, I1, (G1 _ _ _ _ F2 (Nat.lt_succ_diag_r k)), app_nil_r.
        eapply Forall2_fun; [exact (field_fun ed)|exact Hf|exact F1].
      * cbn in Ho. rewrite I2 by lia. cbn [app]. replace (k + S i) with (S k + i) by lia. eapply IH; eassumption.
Qed.

(** ** The objects show one tree *)
Fixpoint shows_msg_fun st p i t t' (H : shows_msg st p i t) {struct H} : shows_msg st p i t' -> t = t'.
Proof.
  intros H'. destruct H as [p i n fs os es ms oo rr ei mi N Fe Fm]. inversion H' as [p' i' n' fs' os' es' ms' oo' rr' ei' mi' N' Fe' Fm']; subst.
  assert (E : mkMR n p ei mi fs os oo rr = mkMR n' p ei' mi' fs' os' oo' rr') by congruence. injection E as -> -> -> -> -> -> ->. f_equal.
  - eapply Forall2_fun; [|exact Fe|exact Fe']. intros a [] []; unfold shows_enum; cbn. intros; congruence.
  - clear - Fm Fm' shows_msg_fun. revert ms' Fm'. induction Fm as [|x y r1 r2 Hxy A4 IH]; intros ms' B4; inversion B4; subst; f_equal; eauto.
Qed.
Lemma shows_file_fun st t t' : shows_file st t -> shows_file st t' -> t = t'.
Proof.
  destruct t as [ed1 a1 a2 a3 a4 a5 a6], t' as [ed2 b1 b2 b3 b4 b5 b6]; unfold shows_file; cbn.
  intros (A1 & A2 & A3 & A4 & A5 & A6 & A7) (B1 & B2 & B3 & B4 & B5 & B6 & B7). f_equal; try congruence.
  - eapply Forall2_fun; [|exact A5|exact B5]. intros; eapply shows_msg_fun; eauto.
  - eapply Forall2_fun; [|exact A6|exact B6]. intros a [] []; unfold shows_enum; cbn. intros; congruence.
Qed.
