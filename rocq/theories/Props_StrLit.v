(** C69.  The value of string literals. *)
From Coq Require Import Strings.String Init.Byte Lia.
From Verif Require Import Base GoStr StrFacts StrLit StrLitSpec StrLitProofs.
Import StringSyntax.
Open Scope N_scope.

(** The full property: [string_constant s v -> unmarshalConst s = Some v], and nothing else is
    accepted.  It is false of the code: *)
Lemma text_plain : forall X q v, quote q -> Forall plain v -> text X q v v.
Proof. intros X q v Q F. pose proof (text_run X q v [] [] Q F (tx_nil X q)) as T. rewrite !app_nil_r in T. exact T. Qed.
Theorem C69_refuted :
  (* \X is rejected *)
  (string_constant (bs """\X41""") (bs "A") /\ unmarshalConst (bs """\X41""") = None) /\
  (* of adjacent literals only the first counts *)
  (string_constant (bs """foo""'bar'") (bs "foobar") /\ unmarshalConst (bs """foo""'bar'") = Some (bs "foo")) /\
  (* the others are not even looked at *)
  (forall q body v rest, quote q -> text false q body v -> unmarshalConst (q :: body ++ q :: rest) = Some v).
Proof.
  split; [split; [|vm_compute; reflexivity]|split; [split; [|vm_compute; reflexivity]|]].
  - change (bs """\X41""") with (x22 :: (x5c :: x58 :: bs "41" ++ []) ++ [x22]). apply sc_one; [now left|].
    change (bs "A") with [n2b 65]. apply tx_hex; [now right| | |constructor].
    + split; [cbn; lia|now left].
    + change (bs "41") with ([x34] ++ [x31]). change 65 with (4 * 16 + 1).
      apply nb_snoc; [|lia|apply (dg_dec 1); lia]. apply (nb_snoc 16 [] 0 x34 4); [constructor|lia|apply (dg_dec 4); lia].
  - change (bs """foo""'bar'") with (x22 :: bs "foo" ++ [x22] ++ (x27 :: bs "bar" ++ [x27])). change (bs "foobar") with (bs "foo" ++ bs "bar").
    apply sc_more; [now left|apply text_plain; [now left|repeat constructor]|]. apply sc_one; [now right|apply text_plain; [now right|repeat constructor]].
  - intros q body v rest Q T. unfold unmarshalConst.
    replace (beqb q x27 || beqb q x22) with true by (destruct Q as [-> | ->]; reflexivity). now apply string_complete.
Qed.
Print Assumptions C69_refuted.

(** A single literal as the lexer takes it has the value that the language gives it, or none if the
    language gives it none.  Missing: adjacent literals and the escape \X, see above. *)
Theorem C69_literal_partial : forall q body v, quote q -> enclosed q body ->
  (unmarshalConst (q :: body ++ [q]) = Some v <-> text false q body v).
Proof.
  intros q body v Q E. unfold unmarshalConst.
  replace (beqb q x27 || beqb q x22) with true by (destruct Q as [-> | ->]; reflexivity). split; intro H.
  - destruct (string_sound q _ v Q H) as (b & rest & EQ & T). pose proof (text_enclosed q b v Q T) as EB.
    destruct (enclosed_ends q body Q E b [] rest EB EQ) as [-> _]. exact T.
  - now apply string_complete.
Qed.
Print Assumptions C69_literal_partial.

(** Every text between quotes that has a value is one that the lexer takes, and it has one value *)
Theorem C69_lexed : forall q body v, quote q -> text false q body v -> enclosed q body /\ forall w, text false q body w -> w = v.
Proof.
  intros q body v Q T. split; [now apply (text_enclosed q body v)|]. intros w T'.
  pose proof (string_complete q body v [] Q T). pose proof (string_complete q body w [] Q T'). congruence.
Qed.
Print Assumptions C69_lexed.

(** Other constants (numbers, identifiers, true, false) are kept as they are written. *)
Theorem C69_other : forall s, (forall q r, s = q :: r -> ~ quote q) -> unmarshalConst s = Some s.
Proof.
  intros [|c s] H; [reflexivity|]. cbn. destruct (beqb c x27 || beqb c x22) eqn:E; [|reflexivity].
  exfalso. apply (H c s eq_refl). apply orb_prop in E. destruct E as [E|E]; apply beqb_spec in E; subst; [now right|now left].
Qed.
Print Assumptions C69_other.

(** The file names of imports and the version in [syntax] use the same function, without the test
    for a quote: the grammar has a string literal there. *)
Theorem C69_import : forall q body v, quote q -> enclosed q body ->
  (UnmarshalString (q :: body ++ [q]) = Some v <-> text false q body v).
Proof.
  intros q body v Q E. rewrite <- (C69_literal_partial q body v Q E). unfold unmarshalConst.
  replace (beqb q x27 || beqb q x22) with true by (destruct Q as [-> | ->]; reflexivity). reflexivity.
Qed.
Print Assumptions C69_import.

(** What the lexer takes as one literal has a value, unless an octal escape in it is above \377. *)
Lemma count2 : forall b n ds, count_digits b n ds = length ds -> exists v, number b ds v /\ Forall (digit_below b) ds.
Proof.
  intros b n ds C. pose proof (count_spec b n ds) as (C1 & C2 & C3 & C4). rewrite C, firstn_all in C3. clear - C3.
  assert (G : exists v, number b ds v).
  { induction ds as [|c ds IH] using rev_ind; [exists 0; constructor|]. apply Forall_app in C3. destruct C3 as [F D]. destruct (IH F) as (v & N).
    inversion D as [|? ? (d & L & DG) _]; subst. exists (v * b + d). now constructor. }
  destruct G as (v & N). exists v. split; assumption.
Qed.
Inductive octals_small : bytes -> Prop :=
| os_nil : octals_small []
| os_char c s : c <> x5c -> octals_small s -> octals_small (c :: s)
| os_escape c s : ~ In c (bs "4567") -> octals_small s -> octals_small (x5c :: c :: s).
Lemma octals_app : forall u s, Forall (fun c => c <> x5c) u -> octals_small (u ++ s) -> octals_small s.
Proof.
  intros u s F. induction F as [|c u N F IH]; intro H; [exact H|]. cbn [app] in H. inversion H; subst; [now apply IH|now contradict N].
Qed.
Theorem C69_accepted : forall q s, quote q -> lexed q s -> octals_small s -> exists v, text true q s v.
Proof.
  intros q s Q L. induction L as [|c s C SU N0 N10 N92 NQ L IH|x d e s X C L IH|d e f s C L IH|c s I L IH]; intro O.
  - exists []. constructor.
  - unfold IsSurrogate in SU. apply not_true_iff_false in SU. rewrite in_range_spec in SU.
    pose proof (encode_utf8 c C ltac:(unfold surrogate; lia)) as U.
    pose proof (utf8_ne q c _ Q U N92 NQ) as F. destruct IH as (v & T).
    + apply octals_app in O; [exact O|]. eapply Forall_impl; [|exact F]. cbn. tauto.
    + exists (EncodeRune c ++ v). now apply tx_char with (c := c).
  - destruct (count2 16 2 [d; e] C) as (n & N & F).
    inversion F as [|? ? D1 F']; subst. inversion F' as [|? ? D2 _]; subst.
    assert (O' : octals_small s).
    { inversion O as [|? ? Nx O1|? ? Nx O1]; subst; [now contradict Nx|].
      apply (octals_app [d; e]) in O1; [exact O1|]. repeat constructor; now apply (below_plain 16 q). }
    destruct (IH O') as (v & T). exists (n2b n :: v). apply (tx_hex true q x [d; e] n s v); [|split; [cbn; lia|now left]|exact N|exact T].
    destruct X as [->| ->]; auto.
  - destruct (count2 8 3 [d; e; f] C) as (n & N & F).
    inversion F as [|? ? D1 F']; subst. inversion F' as [|? ? D2 F'']; subst. inversion F'' as [|? ? D3 _]; subst.
    inversion O as [|? ? Nx O1|? ? Nx O1]; subst; [now contradict Nx|].
    assert (O' : octals_small s). { apply (octals_app [e; f]) in O1; [exact O1|]. repeat constructor; now apply (below_plain 8 q). }
    destruct (IH O') as (v & T). exists (n2b n :: v). apply (tx_octal true q [d; e; f] n s v); [split; [cbn; lia|now left]|exact N| |exact T].
    assert (DD : exists k, k < 4 /\ digit k d).
    { destruct D1 as (k & K & DG). exists k. split; [|exact DG]. destruct (N.lt_ge_cases k 4) as [H|H]; [exact H|]. exfalso. apply Nx.
      inversion DG; subst; try lia. assert (KK : k = 4 \/ k = 5 \/ k = 6 \/ k = 7) by lia. destruct KK as [->|[->|[->| ->]]]; cbn; auto. }
    clear - N DD. destruct DD as (k & K & DG).
    change [d; e; f] with ([d; e] ++ [f]) in N. inversion N as [|s1 v1 c1 d1 N1 L1 G1 E1]; subst. change (s1 ++ [c1] = [d; e] ++ [f]) in E1. apply app_inj_tail in E1. destruct E1 as [-> ->].
    change [d; e] with ([d] ++ [e]) in N1. inversion N1 as [|s2 v2 c2 d2 N2 L2 G2 E2]; subst. change (s2 ++ [c2] = [d] ++ [e]) in E2. apply app_inj_tail in E2. destruct E2 as [-> ->].
    change [d] with ([] ++ [d]) in N2. inversion N2 as [|s3 v3 c3 d3 N3 L3 G3 E3]; subst. change (s3 ++ [c3] = [] ++ [d]) in E3. apply app_inj_tail in E3. destruct E3 as [-> ->].
    assert (v3 = 0). { inversion N3 as [|? ? ? ? ? ? ? E]; subst; [reflexivity|]. now destruct s. } subst v3.
    assert (d3 = k). { apply digit_value_spec in DG, G3. congruence. } subst. lia.
  - assert (E : exists k, In (c, k) simple_escapes).
    { cbn in I. cbn. repeat (destruct I as [<-|I]; [eexists; eauto 20|]). destruct I. }
    destruct E as (k & E). inversion O as [|? ? Nx O1|? ? Nx O1]; subst; [now contradict Nx|].
    destruct (IH O1) as (v & T). exists (k :: v). now apply tx_escape.
Qed.
Print Assumptions C69_accepted.
(** The converse is false: the lexer takes no \u, no \?, and no escape with fewer digits than it may have. *)
Theorem C69_lexer_refuted : exists s v, text true x22 s v /\ ~ lexed x22 s.
Proof.
  exists (bs "\?"), [x3f]. split.
  - apply (tx_escape true x22 x3f x3f [] []); [cbn; auto 20|constructor].
  - intro L. remember (bs "\?") as t eqn:E. destruct L as [|c s C SU N0 N10 N92 NQ L|x d e s X C L|d e f s C L|c s I L]; try discriminate E.
    + pose proof (f_equal (fun l => DecodeRune l) E) as D. cbv beta in D.
      unfold IsSurrogate in SU. apply not_true_iff_false in SU. rewrite in_range_spec in SU.
      rewrite (decode_complete c (EncodeRune c) s) in D by (apply encode_utf8; [exact C|unfold surrogate; lia]).
      vm_compute in D. injection D as D _. contradiction.
    + injection E as -> ->. cbn in I. repeat (destruct I as [I|I]; [discriminate I|]). destruct I.
Qed.
Print Assumptions C69_lexer_refuted.

(** Plain text: what is between the quotes. *)
Example C69_ex_plain : unmarshalConst (bs "'google/protobuf/any.proto'") = Some (bs "google/protobuf/any.proto") /\ enclosed x27 (bs "google/protobuf/any.proto").
Proof. split; [vm_compute; reflexivity|]. repeat (apply en_char; [discriminate|discriminate|]). apply en_nil. Qed.
(** Escapes: \n, \101, \x4a, the Euro sign by \u and U+1F600 by \U and by surrogates *)
Example C69_ex_escapes :
  unmarshalConst (bs """\n\101\x4a\u20AC\U0001F600\uD83D\uDE00""") =
    Some ([x0a; x41; x4a; xe2; x82; xac; xf0; x9f; x98; x80; xf0; x9f; x98; x80]) /\
  enclosed x22 (bs "\n\101\x4a\u20AC\U0001F600\uD83D\uDE00").
Proof. split; [vm_compute; reflexivity|]. repeat (first [apply en_escape|apply en_char; [discriminate|discriminate|]]). apply en_nil. Qed.
(** A lexed literal *)
Example C69_ex_lexed : lexed x22 (bs "a\x41\101\n") /\ octals_small (bs "a\x41\101\n").
Proof.
  split.
  - apply (lx_char x22 97 (bs "\x41\101\n")); try discriminate; try reflexivity.
    apply lx_hex; [now left|reflexivity|]. apply lx_oct; [reflexivity|]. apply lx_escape; [cbn; auto 20|constructor].
  - repeat (first [apply os_escape; [cbn; intros [|[|[|[|[]]]]]; discriminate|]|apply os_char; [discriminate|]]). constructor.
Qed.
(** Rejected: an octal escape above 255, a lone surrogate, invalid UTF-8, an unknown escape *)
Example C69_ex_rejected :
  unmarshalConst (bs """\777""") = None /\ unmarshalConst (bs """\uD83D""") = None /\ unmarshalConst [x22; xff; x22] = None /\
  unmarshalConst (bs """\q""") = None.
Proof. vm_compute. repeat split. Qed.
