(** Proofs about whole files: every message of an accepted file is one the generator can take. *)
From Coq Require Import List Arith Bool ZArith Lia Permutation Strings.String Init.Byte.
From Coq Require Arith.Cantor.
From Verif Require Import Base GoStr StrFacts GenField GenNames GenSpec NameSpec Scope Verify StrLit Listen ListenSpec ListenProofs.
From Verif Require Import VerifySpec VerifyProofs ScopeProofs.
From Verif Require Import Atn LexSpec LexFileSpec LexFile LexProofs ParserNames Parser ParserSpec ParserProofs IdentProofs.
From Verif Require Import SpellSpec Walk WalkProofs WalkDefs WalkFile Compile CompileSpec.
Import ListNotations StringSyntax.
Local Open Scope string_scope.
Local Open Scope list_scope.
Open Scope nat_scope.

(* ---------- the lists reach every object ---------- *)
Definition in_lists_later (st : state) : Prop :=
  forall j m, nth_error (l_msgs st) j = Some m -> Forall (fun i => j < i) (mr_msgs m).
Lemma later_upd ms i m m' : nth_error ms i = Some m -> Forall (fun k => i < k) (mr_msgs m') ->
  (forall j x, nth_error ms j = Some x -> Forall (fun k => j < k) (mr_msgs x)) ->
  forall j x, nth_error (upd_nth i m' ms) j = Some x -> Forall (fun k => j < k) (mr_msgs x).
Proof.
  intros E G H j x Ej. destruct (Nat.eq_dec i j) as [<-|D].
  - rewrite (upd_nth_same _ _ _ _ E) in Ej. injection Ej as <-. exact G.
  - rewrite upd_nth_other in Ej by exact D. eauto.
Qed.
Lemma later_with st k st' : (forall m m', k m = Some m' -> mr_msgs m' = mr_msgs m) ->
  with_msg st k = LOk st' -> in_lists_later st -> in_lists_later st'.
Proof.
  unfold with_msg, in_lists_later. intros K. destruct (l_stack st) as [|i s]; [discriminate|].
  destruct (nth_error (l_msgs st) i) as [m|] eqn:E; [|discriminate]. destruct (k m) as [m'|] eqn:Ek; [|discriminate].
  intros H L. injection H as <-. cbn [l_msgs set_msgs]. eapply later_upd; [exact E| |exact L]. rewrite (K _ _ Ek). eauto.
Qed.
Lemma later_enum st k st' : with_enum st k = LOk st' -> in_lists_later st -> in_lists_later st'.
Proof.
  unfold with_enum, in_lists_later. destruct (l_enum st) as [i|]; [|discriminate]. destruct (nth_error (l_enums st) i); [|discriminate].
  intros H L. injection H as <-. exact L.
Qed.
Lemma later_snoc ms m : mr_msgs m = [] -> (forall j x, nth_error ms j = Some x -> Forall (fun k => j < k) (mr_msgs x)) ->
  forall j x, nth_error (ms ++ [m]) j = Some x -> Forall (fun k => j < k) (mr_msgs x).
Proof.
  intros E H j x Ej. destruct (Nat.lt_ge_cases j (length ms)) as [L|G].
  - rewrite nth_error_app1 in Ej by exact L. eauto.
  - rewrite nth_error_app2 in Ej by exact G. destruct (j - length ms) as [|n]; cbn in Ej; [|destruct n; discriminate].
    injection Ej as <-. rewrite E. constructor.
Qed.
Lemma step_later st e st' : step st e = LOk st' -> in_lists_later st -> in_lists_later st'.
Proof.
  assert (T : forall st k st', with_msg st k = LOk st' -> (forall m m', k m = Some m' -> mr_msgs m' = mr_msgs m) -> in_lists_later st -> in_lists_later st')
    by (intros; eapply later_with; eauto).
  destruct e as [p n| |p n| |n neg lit oo|p lb f|f|k f|n|p n c|p rr|n|n|streams t0 t1|lit|n|pub lit]; cbn [step]; intros H L.
  - destruct p; try discriminate.
    + injection H as <-. unfold in_lists_later. cbn. now apply later_snoc.
    + destruct (l_stack st) as [|j s] eqn:Es; [discriminate|]. unfold with_msg in H. rewrite Es in H.
      destruct (nth_error (l_msgs st) j) as [m|] eqn:E; [|discriminate].
      injection H as <-. unfold in_lists_later. cbn. apply later_snoc; [reflexivity|]. eapply later_upd; [exact E| |exact L].
      cbn. apply Forall_app. split; [now apply L|]. constructor; [|constructor]. now apply nth_error_lt in E.
  - destruct (l_stack st); [discriminate|]. injection H as <-. exact L.
  - destruct p; try discriminate.
    + injection H as <-. exact L.
    + destruct (l_stack st) as [|j s] eqn:Es; [discriminate|]. unfold with_msg in H. rewrite Es in H.
      destruct (nth_error (l_msgs st) j) as [m|] eqn:E; [|discriminate].
      injection H as <-. unfold in_lists_later. cbn. eapply later_upd; [exact E| |exact L]. exact (L _ _ E).
  - injection H as <-. exact L.
  - destruct (read_enum_field (n, neg, lit)) as [[n' v]|]; [|discriminate]. destruct (read_options oo); [|discriminate].
    eapply later_enum; eauto.
  - destruct p; try (injection H as <-; exact L); (destruct (newField f None); [|discriminate]);
      (destruct lb as [[]|]; [| | |]);
      try (match type of H with (if ?b then _ else _) = _ => destruct b; [|discriminate] end);
      (eapply T; [exact H| |exact L]; intros m m' Q; injection Q as <-; reflexivity).
  - destruct (newField f None); [|discriminate]. eapply T; [exact H| |exact L]. intros m m' Q. cbn in Q.
    match type of Q with context[on_last ?a ?b] => destruct (on_last a b); [|discriminate] end. injection Q as <-. reflexivity.
  - destruct (newField f (Some k)); [|discriminate]. eapply T; [exact H| |exact L]. intros m m' Q. injection Q as <-. reflexivity.
  - eapply T; [exact H| |exact L]. intros m m' Q. injection Q as <-. reflexivity.
  - destruct (unmarshalConst c) as [v|]; [|discriminate]. destruct (verifyOption n v); [|discriminate]. destruct p.
    + injection H as <-. exact L.
    + injection H as <-. exact L.
    + eapply T; [exact H| |exact L]. intros m m' Q. injection Q as <-. reflexivity.
    + eapply T; [exact H| |exact L]. intros m m' Q; cbn in Q; match type of Q with context[on_last ?a ?b] => destruct (on_last a b); [|discriminate] end. injection Q as <-. reflexivity.
    + eapply later_enum; eauto.
    + match type of H with context[on_last ?a ?b] => destruct (on_last a b); [|discriminate] end. injection H as <-. exact L.
    + match type of H with context[on_last ?a ?b] => destruct (on_last a b); [|discriminate] end. injection H as <-. exact L.
    + injection H as <-. exact L.
  - destruct (all read_range rr); [|discriminate]. destruct p; try (injection H as <-; exact L).
    + eapply T; [exact H| |exact L]. intros m m' Q. injection Q as <-. reflexivity.
    + eapply later_enum; eauto.
  - injection H as <-. exact L.
  - match type of H with context[on_last ?a ?b] => destruct (on_last a b); [|discriminate] end. injection H as <-. exact L.
  - match type of H with context[on_last ?a ?b] => destruct (on_last a b); [|discriminate] end. injection H as <-. exact L.
  - destruct (UnmarshalString lit) as [v|]; [|discriminate]. destruct (known_edition v); [|discriminate]. injection H as <-. exact L.
  - destruct (p_package st); [|discriminate]. injection H as <-. exact L.
  - destruct (UnmarshalString lit); [|discriminate]. injection H as <-. exact L.
Qed.
Lemma run_later evs : forall st st', run st evs = LOk st' -> in_lists_later st -> in_lists_later st'.
Proof.
  induction evs as [|e l IH]; cbn; intros st st' H L; [injection H as <-; exact L|].
  destruct (step st e) as [st1| |] eqn:E; [|discriminate|discriminate]. eapply IH; [exact H|]. eapply step_later; eauto.
Qed.
Lemma load_once f st : load f = LOk st -> listed_once st.
Proof. intros H. eapply run_once; [exact H|]. split; apply Permutation_refl. Qed.
Lemma load_later f st : load f = LOk st -> in_lists_later st.
Proof. intros H. eapply run_later; [exact H|]. intros j m E. destruct j; discriminate. Qed.

Lemma load_reached f st : load f = LOk st ->
  (forall i, i < length (l_msgs st) -> reached st i) /\ (forall j, j < length (l_enums st) -> reached_enum st j).
Proof.
  intros H. destruct (load_once _ _ H) as [P Q]. pose proof (load_later _ _ H) as L.
  assert (R : forall n i, i < n -> i < length (l_msgs st) -> reached st i).
  { induction n as [|n IH]; intros i Hn Hi; [lia|].
    assert (J : In i (p_msgs st ++ flat_map mr_msgs (l_msgs st))) by (apply (Permutation_in _ (Permutation_sym P)), in_seq; lia).
    apply in_app_or in J as [J|J]; [now apply reached_top|]. apply in_flat_map in J as (m & Im & Ii).
    apply In_nth_error in Im as [j Ej]. pose proof (L _ _ Ej) as G. rewrite Forall_forall in G. specialize (G _ Ii).
    eapply reached_in; [|exact Ej|exact Ii]. apply IH; [lia|]. now apply nth_error_lt in Ej. }
  split; [intros i Hi; exact (R (S i) i (Nat.lt_succ_diag_r i) Hi)|].
  intros j Hj. assert (J : In j (p_enums st ++ flat_map mr_enums (l_msgs st))) by (apply (Permutation_in _ (Permutation_sym Q)), in_seq; lia).
  apply in_app_or in J as [J|J]; [now left|]. apply in_flat_map in J as (m & Im & Ii). apply In_nth_error in Im as [i Ei].
  right. exists i, m. split; [|split; [exact Ei|exact Ii]]. pose proof (nth_error_lt _ _ _ Ei) as Li. exact (R (S i) i (Nat.lt_succ_diag_r i) Li).
Qed.

(* ---------- names ---------- *)
Definition word_ranges : ranges := letter_ranges ++ [range "0" "9"].
Definition sub_ranges (a b : ranges) : bool :=
  forallb (fun x => existsb (fun y => ((fst y <=? fst x) && (snd x <=? snd y))%Z) b) a.
Fixpoint within (b : ranges) (r : re) : bool :=
  match r with
  | Nothing | Empty => true
  | OneOf l => sub_ranges l b
  | NoneOf _ => false
  | Seq x y | Or x y => within b x && within b y
  | Many x => within b x
  end.
Lemma sub_ranges_ok a b c : sub_ranges a b = true -> LexSpec.in_ranges a c = true -> LexSpec.in_ranges b c = true.
Proof.
  unfold sub_ranges, LexSpec.in_ranges. rewrite forallb_forall, !existsb_exists. intros H (x & Ix & Hx).
  specialize (H _ Ix). apply existsb_exists in H as (y & Iy & Hy). exists y. split; [exact Iy|]. lia.
Qed.
Lemma within_ok b r t : matches r t -> within b r = true -> Forall (fun c => LexSpec.in_ranges b c = true) t.
Proof.
  induction 1 as [|l c H|l c Hc H|r s x y A IHA B IHB|r s x A IHA|r s x A IHA|r|r x y A IHA B IHB];
    cbn [within]; intros W; try discriminate; try constructor; auto.
  - now apply (sub_ranges_ok l).
  - apply andb_true_iff in W as [W1 W2]. apply Forall_app. auto.
  - apply andb_true_iff in W as [W1 W2]. auto.
  - apply andb_true_iff in W as [W1 W2]. auto.
  - apply Forall_app. auto.
Qed.
Fixpoint nullable (r : re) : bool :=
  match r with
  | Empty | Many _ => true
  | Nothing | OneOf _ | NoneOf _ => false
  | Seq x y => nullable x && nullable y
  | Or x y => nullable x || nullable y
  end.
Lemma nullable_ok r t : matches r t -> t = [] -> nullable r = true.
Proof.
  induction 1 as [|l c H|l c Hc H|r s x y A IHA B IHB|r s x A IHA|r s x A IHA|r|r x y A IHA B IHB]; cbn [nullable]; intros E; try discriminate; auto.
  - apply app_eq_nil in E as [-> ->]. now rewrite IHA, IHB.
  - now rewrite IHA.
  - rewrite IHA by exact E. apply orb_true_r.
Qed.
Lemma name_kinds_words : forallb (fun p => within word_ranges (snd p) && negb (nullable (snd p)))
  (filter (fun p => mem (fst p) name_kinds) kinds) = true.
Proof. vm_compute. reflexivity. Qed.
Definition ident_charb (c : byte) : bool := GoStr.is_digit c || GoStr.is_lower c || GoStr.is_upper c || beqb c x5f.
Lemma ident_charb_ok c : ident_charb c = true -> ident_char c.
Proof.
  unfold ident_charb, ident_char. rewrite !orb_true_iff. intros [[[H|H]|H]|H]; auto. right. right. right.
  destruct (beqb_spec c x5f); [assumption|discriminate].
Qed.
Lemma word_chars_one : forallb (fun n => negb (LexSpec.in_ranges word_ranges (Z.of_nat n)) ||
   match EncodeRune (N.of_nat n) with [c] => ident_charb c | _ => false end) (seq 0 128) = true.
Proof. vm_compute. reflexivity. Qed.
Lemma word_char c : LexSpec.in_ranges word_ranges c = true -> exists b, EncodeRune (Z.to_N c) = [b] /\ ident_char b.
Proof.
  intros H. assert (B : (0 <= c < 128)%Z).
  { clear - H. unfold LexSpec.in_ranges in H. apply existsb_exists in H as (r & I & H). 
    assert (W : forallb (fun p => (0 <=? fst p) && (snd p <? 128))%Z word_ranges = true) by (vm_compute; reflexivity).
    rewrite forallb_forall in W. specialize (W _ I). lia. }
  pose proof word_chars_one as W. rewrite forallb_forall in W. specialize (W (Z.to_nat c)). rewrite in_seq in W.
  specialize (W ltac:(lia)). rewrite Z2Nat.id in W by lia. rewrite H in W. cbn [negb orb] in W.
  replace (N.of_nat (Z.to_nat c)) with (Z.to_N c) in W by lia.
  destruct (EncodeRune (Z.to_N c)) as [|b [|]]; try discriminate. exists b. split; [reflexivity|]. now apply ident_charb_ok.
Qed.
Lemma word_text t : Forall (fun c => LexSpec.in_ranges word_ranges c = true) t -> t <> [] -> ident (GetText t).
Proof.
  intros F N. split; [now apply GetText_not_empty|]. clear N. unfold GetText. induction F as [|c t H F IH]; [constructor|]. cbn [flat_map].
  destruct (word_char _ H) as (b & -> & I). constructor; assumption.
Qed.
Lemma ident_token w f : derives (rule r_ident) w f -> exists x, w = [x] /\ In (t_kind x) name_kinds.
Proof.
  change (rule r_ident) with [Alt [[t IDENTIFIER]; [N r_keywords]]]. intros D. apply i_alt in D as (b & I & D).
  rewrite app_nil_r in D. destruct I as [<-|[<-|[]]].
  - apply i_T in D as (x & w' & f' & -> & _ & K & D). apply i_nil in D as [-> _]. exists x. split; [reflexivity|]. destruct K as [K|[]]. left. exact K.
  - apply i_N in D as (w1 & f1 & w2 & f2 & -> & _ & D1 & D2). apply i_nil in D2 as [-> _]. rewrite app_nil_r.
    change (rule r_keywords) with [T keyword_tokens] in D1. apply i_T in D1 as (x & w' & f' & -> & _ & K & D). apply i_nil in D as [-> _].
    exists x. split; [reflexivity|]. right. exact K.
Qed.
Lemma lexed_kind x k : lexed [x] -> t_kind x = k -> k <> EOF -> first_kind k (t_text x).
Proof. intros L <- N. apply Forall_inv in L as [L|L]; [contradiction|exact L]. Qed.
Lemma name_kinds_not_eof : ~ In EOF name_kinds.
Proof. intros H. apply mem_In in H. vm_compute in H. discriminate. Qed.
(** The characters that a text can start with *)
Fixpoint starts (b : ranges) (r : re) : bool :=
  match r with
  | Nothing | Empty => true
  | OneOf l => sub_ranges l b
  | NoneOf _ => false
  | Seq x y => starts b x && (negb (nullable x) || starts b y)
  | Or x y => starts b x && starts b y
  | Many x => starts b x
  end.
Lemma starts_ok b r t : matches r t -> starts b r = true -> match t with [] => True | c :: _ => LexSpec.in_ranges b c = true end.
Proof.
  induction 1 as [|l c H|l c Hc H|r s x y A IHA B IHB|r s x A IHA|r s x A IHA|r|r x y A IHA B IHB];
    cbn [starts]; intros W; try discriminate; try exact I.
  - exact (sub_ranges_ok l b c W H).
  - apply andb_true_iff in W as [W1 W2]. specialize (IHA W1). destruct x as [|c x]; [|exact IHA]. cbn [app].
    rewrite (nullable_ok _ _ A eq_refl) in W2. exact (IHB W2).
  - apply andb_true_iff in W as [W1 W2]. exact (IHA W1).
  - apply andb_true_iff in W as [W1 W2]. exact (IHA W2).
  - specialize (IHA W). specialize (IHB W). destruct x as [|c x]; [exact IHB|exact IHA].
Qed.
Lemma name_kinds_starts : forallb (fun p => starts letter_ranges (snd p)) (filter (fun p => mem (fst p) name_kinds) kinds) = true.
Proof. vm_compute. reflexivity. Qed.
Lemma letter_chars_one : forallb (fun n => negb (LexSpec.in_ranges letter_ranges (Z.of_nat n)) ||
   match EncodeRune (N.of_nat n) with [c] => GoStr.is_lower c || GoStr.is_upper c || beqb c x5f | _ => false end) (seq 0 128) = true.
Proof. vm_compute. reflexivity. Qed.
Lemma letter_char c : LexSpec.in_ranges letter_ranges c = true -> exists b, EncodeRune (Z.to_N c) = [b] /\ (NameSpec.letter b \/ b = x5f).
Proof.
  intros H. assert (B : (0 <= c < 128)%Z).
  { clear - H. unfold LexSpec.in_ranges in H. apply existsb_exists in H as (r & I & H).
    assert (W : forallb (fun p => (0 <=? fst p) && (snd p <? 128))%Z letter_ranges = true) by (vm_compute; reflexivity).
    rewrite forallb_forall in W. specialize (W _ I). lia. }
  pose proof letter_chars_one as W. rewrite forallb_forall in W. specialize (W (Z.to_nat c)). rewrite in_seq in W.
  specialize (W ltac:(lia)). rewrite Z2Nat.id in W by lia. rewrite H in W. cbn [negb orb] in W.
  replace (N.of_nat (Z.to_nat c)) with (Z.to_N c) in W by lia.
  destruct (EncodeRune (Z.to_N c)) as [|b [|]]; try discriminate. exists b. split; [reflexivity|].
  rewrite !orb_true_iff in W. destruct W as [[W|W]|W]; [left; now left|left; now right|right]. destruct (beqb_spec b x5f); [assumption|discriminate].
Qed.
Lemma proto_ident s : proto_name s -> ident s.
Proof.
  intros (c & r & -> & H & R). split; [discriminate|]. constructor; [|exact R]. unfold ident_char. destruct H as [[H|H]|H]; auto.
Qed.
Lemma ident_proto s w : (exists f, derives (rule r_ident) w f) -> lexed w -> says w = s -> proto_name s.
Proof.
  intros [f D] L <-. apply ident_token in D as (x & -> & K). cbn [says flat_map]. rewrite app_nil_r.
  assert (E : t_kind x <> EOF) by (intros E; rewrite E in K; exact (name_kinds_not_eof K)).
  destruct (lexed_kind x _ L eq_refl E) as [(r & I & M) _]. pose proof name_kinds_words as W. pose proof name_kinds_starts as W0. rewrite forallb_forall in W, W0.
  specialize (W (t_kind x, r)). specialize (W0 (t_kind x, r)). cbn [snd] in W, W0. rewrite filter_In in W, W0. cbn [fst] in W, W0.
  assert (Km : mem (t_kind x) name_kinds = true) by now apply mem_In.
  specialize (W (conj I Km)). specialize (W0 (conj I Km)). apply andb_true_iff in W as [W1 W2].
  pose proof (within_ok _ _ _ M W1) as Wd. pose proof (starts_ok _ _ _ M W0) as St.
  destruct (t_text x) as [|c t]; [now rewrite (nullable_ok _ _ M eq_refl) in W2|].
  destruct (letter_char _ St) as (b & Eb & Lb). inversion Wd as [|c' t' Hc Ht]; subst. unfold GetText. cbn [flat_map]. rewrite Eb.
  exists b, (GetText t). split; [reflexivity|]. split; [exact Lb|]. destruct t as [|c2 t]; [constructor|]. now apply word_text.
Qed.
Lemma name_proto q s w : rule q = [N r_ident] -> named q s w -> lexed w -> proto_name s.
Proof.
  intros E [[f D] S] L. apply i_N in D as (w1 & f1 & w2 & f2 & -> & _ & D1 & D2). apply i_nil in D2 as [-> _]. rewrite app_nil_r in *.
  rewrite E in D1. apply i_N in D1 as (w3 & f3 & w4 & f4 & -> & _ & D3 & D4). apply i_nil in D4 as [-> _]. rewrite app_nil_r in *.
  eapply ident_proto; [exists f3; exact D3|exact L|exact S].
Qed.
Lemma named_proto s w : named r_ident s w -> lexed w -> proto_name s.
Proof.
  intros [[f D] S] L. apply i_N in D as (w1 & f1 & w2 & f2 & -> & _ & D1 & D2). apply i_nil in D2 as [-> _]. rewrite app_nil_r in *.
  eapply ident_proto; [exists f1; exact D1|exact L|exact S].
Qed.

(* ---------- the types of keys ---------- *)
Definition key_kinds : list Z := [INT32; INT64; UINT32; UINT64; SINT32; SINT64; FIXED32; FIXED64; SFIXED32; SFIXED64; BOOL; STRING].
Lemma key_ok s w : named r_keyType s w -> lexed w -> exists k, scalar_of s = Some k /\ map_key k.
Proof.
  intros [[f D] <-] L. apply i_N in D as (w1 & f1 & w2 & f2 & -> & _ & D1 & D2). apply i_nil in D2 as [-> _]. rewrite app_nil_r in *.
  change (rule r_keyType) with [T key_kinds] in D1. apply i_T in D1 as (x & w' & f' & -> & _ & K & D). apply i_nil in D as [-> _].
  rewrite app_nil_r in *. cbn [says flat_map]. rewrite app_nil_r.
  assert (E : t_kind x <> EOF) by (intros E; rewrite E in K; apply mem_In in K; vm_compute in K; discriminate).
  destruct (lexed_kind x _ L eq_refl E) as [(r & I & M) _].
  assert (G : exists n, t_text x = str n /\ In n ["int32"; "int64"; "uint32"; "uint64"; "sint32"; "sint64"; "fixed32"; "fixed64"; "sfixed32"; "sfixed64"; "bool"; "string"]).
  { clear - K I M. unfold key_kinds in K.
    assert (J : In (t_kind x, r) (filter (fun p => mem (fst p) key_kinds) kinds)) by (apply filter_In; split; [exact I|]; apply mem_In; exact K).
    set (l := filter (fun p => mem (fst p) key_kinds) kinds) in J. vm_compute in l. subst l.
    repeat (destruct J as [J|J]; [injection J as _ <-; (match type of M with matches ?q _ =>
      first [change q with (lit "int32") in M|change q with (lit "int64") in M|change q with (lit "uint32") in M|change q with (lit "uint64") in M
            |change q with (lit "sint32") in M|change q with (lit "sint64") in M|change q with (lit "fixed32") in M|change q with (lit "fixed64") in M
            |change q with (lit "sfixed32") in M|change q with (lit "sfixed64") in M|change q with (lit "bool") in M|change q with (lit "string") in M] end);
      unfold lit in M; apply lit_inv in M; eexists; split; [exact M|cbn; tauto]|]). destruct J. }
  destruct G as (n & -> & J).
  repeat (destruct J as [<-|J]; [eexists; split; [vm_compute; reflexivity|vm_compute; exact Logic.I]|]). destruct J.
Qed.
