(** Proofs: the definitions of a file are placed as CommentSpec.v asks for. *)
From Coq Require Import List Arith Bool ZArith NArith Lia Sorting.Sorted Init.Byte.
From Verif Require Import Base GoStr StrFacts StrLit Comments CommentSpec Atn LexFile LexSpec LexFileSpec LexFileProofs Listen ParserNames Parser Walk ParserSpec
  WalkProofs WalkFile FileComments.
Import ListNotations.
Open Scope nat_scope.

(* ---------- the calls that ask for comments, by the rules ---------- *)
Definition opener (r : nat) : bool := existsb (Nat.eqb r) [r_messageDef; r_enumDef; r_serviceDef; r_rpc].
Definition closer (p r : nat) : bool :=
  existsb (Nat.eqb r) [r_enumField; r_oneofField; r_mapField] || ((r =? r_field) && negb (p =? r_extendDef)).
Fixpoint defs (p : nat) (x : tree) : list (nat * nat) :=
  match x with
  | Leaf _ => []
  | Node r l => (if opener r then [span l] else []) ++ flat_map (defs r) l ++ (if closer p r then [span l] else [])
  end.
Lemma bind_some {A B} (x : option A) (f : A -> option B) y : Walk.bind x f = Some y -> exists a, x = Some a /\ f a = Some y.
Proof. destruct x; [eauto|discriminate]. Qed.
Ltac binds H := repeat (let a := fresh "a" in let E := fresh "E" in apply bind_some in H as (a & E & H)).
Ltac at_rule r k := destruct (Nat.eqb_spec r k) as [->|?].
Lemma enter_asks p r l es s : enter p r l = Some es ->
  map snd (asking (map (fun e => (e, s)) es)) = if opener r then [s] else [] : list (nat * nat).
Proof.
  unfold enter. intros H. at_rule r r_messageDef; [binds H; injection H as <-; reflexivity|].
  at_rule r r_enumDef; [binds H; injection H as <-; reflexivity|].
  at_rule r r_oneof; [binds H; injection H as <-; reflexivity|].
  at_rule r r_serviceDef; [binds H; injection H as <-; reflexivity|].
  at_rule r r_rpc; [binds H; injection H as <-; reflexivity|]. injection H as <-.
  unfold opener. cbn [existsb]. repeat match goal with |- context[r =? ?k] => destruct (Nat.eqb_spec r k); [congruence|] end. reflexivity.
Qed.
Lemma parent_extend p q : parent p = Some q -> (match q with RExtend => false | _ => true end) = negb (p =? r_extendDef).
Proof.
  unfold parent. intros H.
  at_rule p r_proto; [injection H as <-; reflexivity|]. at_rule p r_topLevelDef; [injection H as <-; reflexivity|].
  at_rule p r_messageElement; [injection H as <-; reflexivity|]. at_rule p r_oneof; [injection H as <-; reflexivity|].
  at_rule p r_enumElement; [injection H as <-; reflexivity|]. at_rule p r_serviceElement; [injection H as <-; reflexivity|].
  at_rule p r_rpc; [injection H as <-; reflexivity|]. at_rule p r_extendDef; [injection H as <-; reflexivity|]. discriminate.
Qed.
Lemma exit_asks p r l es s : exit p r l = Some es ->
  map snd (asking (map (fun e => (e, s)) es)) = if closer p r then [s] else [] : list (nat * nat).
Proof.
  unfold exit. intros H. at_rule r r_messageDef; [injection H as <-; reflexivity|].
  at_rule r r_enumDef; [injection H as <-; reflexivity|].
  at_rule r r_enumField; [binds H; injection H as <-; reflexivity|].
  at_rule r r_field.
  { binds H. injection H as <-. unfold asking. cbn [map filter fst asks]. rewrite (parent_extend _ _ E).
    unfold closer. cbn [existsb]. cbn [Nat.eqb r_field r_enumField r_oneofField r_mapField orb andb]. destruct (negb (p =? r_extendDef)); reflexivity. }
  at_rule r r_oneofField; [binds H; injection H as <-; reflexivity|].
  at_rule r r_mapField; [binds H; injection H as <-; reflexivity|].
  assert (C : closer p r = false).
  { unfold closer. cbn [existsb]. repeat match goal with |- context[r =? ?k] => destruct (Nat.eqb_spec r k); [congruence|] end. reflexivity. }
  rewrite C. clear C.
  at_rule r r_optionStatement; [binds H; injection H as <-; reflexivity|].
  at_rule r r_reserved; [destruct (context r_ranges 0 l); [binds H|]; injection H as <-; reflexivity|].
  at_rule r r_rpc; [binds H; injection H as <-; reflexivity|].
  at_rule r r_edition; [binds H; injection H as <-; reflexivity|].
  at_rule r r_packageStatement; [binds H; injection H as <-; reflexivity|].
  at_rule r r_importStatement; [binds H; injection H as <-; reflexivity|]. now injection H as <-.
Qed.
Lemma asking_app a b : asking (a ++ b) = asking a ++ asking b.
Proof. apply filter_app. Qed.
Lemma join_some {A} (a b : option (list A)) c : join a b = Some c -> exists u v, a = Some u /\ b = Some v /\ c = u ++ v.
Proof. destruct a, b; try discriminate. cbn. intros [= <-]. eauto. Qed.
Lemma tree_rect' (P : tree -> Prop) : (forall t, P (Leaf t)) -> (forall r l, Forall P l -> P (Node r l)) -> forall x, P x.
Proof.
  intros A B. fix IH 1. intros [t|r l]; [apply A|]. apply B. induction l as [|x l IHl]; constructor; [apply IH|exact IHl].
Qed.
Lemma calls_defs x : forall p cs, calls p x = Some cs -> map snd (asking cs) = defs p x.
Proof.
  induction x as [t|r l IH] using tree_rect'; intros p cs H.
  - injection H as <-. reflexivity.
  - cbn [calls] in H. apply join_some in H as (a & b & Ea & H & ->). apply join_some in H as (m & c & Em & Ec & ->).
    unfold here in Ea, Ec. destruct (enter p r l) as [es|] eqn:En; [|discriminate]. injection Ea as <-.
    destruct (exit p r l) as [xs|] eqn:Ex; [|discriminate]. injection Ec as <-.
    rewrite !asking_app, !map_app, (enter_asks _ _ _ _ _ En), (exit_asks _ _ _ _ _ Ex). cbn [defs]. f_equal. f_equal.
    clear En Ex. revert m Em. induction IH as [|y l Hy Hl IHl]; intros m Em; [injection Em as <-; reflexivity|].
    cbn [fold_right] in Em. apply join_some in Em as (u & v & Eu & Ev & ->). rewrite asking_app, map_app. cbn [flat_map].
    rewrite (Hy _ _ Eu). f_equal. now apply IHl.
Qed.
Lemma calls_events x : forall p, option_map (map fst) (calls p x) = events p x.
Proof.
  induction x as [t|r l IH] using tree_rect'; intros p; [reflexivity|]. cbn [calls events].
  assert (HH : forall es, option_map (map fst) (here l es) = es).
  { intros [es|]; [|reflexivity]. cbn. f_equal. rewrite map_map. apply map_id. }
  assert (J : forall a b : option (list (event * (nat * nat))), option_map (map fst) (join a b) = cat (option_map (map fst) a) (option_map (map fst) b)).
  { intros [a|] [b|]; cbn; try reflexivity. now rewrite map_app. }
  rewrite !J, !HH. f_equal. f_equal. clear HH. induction IH as [|y l Hy Hl IHl]; [reflexivity|]. cbn [fold_right]. rewrite J, Hy. f_equal. exact IHl.
Qed.

(* ---------- their order ---------- *)
Definition after (d e : nat * nat) : Prop := snd d < fst e \/ (fst d < fst e /\ snd e < snd d).
Definition starts (w : list tok) : list nat := map t_start w.
Definition within (w : list tok) (d : nat * nat) : Prop := fst d <= snd d /\ In (fst d) (starts w) /\ In (snd d) (starts w).
Definition quiet_rules : list nat :=
  [r_optionName; r_fieldLabel; r_fieldOptions; r_fieldOption; r_fieldNumber; r_keyType; r_fieldType; r_enumValueOptions; r_enumValueOption;
   r_constant; r_blockLit; r_ident; r_fullIdent; r_messageName; r_enumName; r_fieldName; r_oneofName; r_serviceName; r_rpcName; r_messageType;
   r_enumType; r_intLit; r_strLit; r_boolLit; r_floatLit; r_keywords].
Definition is_quiet (r : nat) : bool := existsb (Nat.eqb r) quiet_rules.
Fixpoint sym_quiet (s : sym) : bool :=
  match s with
  | T _ => true
  | N r => is_quiet r
  | Opt b | Star b | Plus b => forallb sym_quiet b
  | Alt bs => forallb (forallb sym_quiet) bs
  end.
Lemma quiet_closed r : is_quiet r = true -> forallb sym_quiet (rule r) = true /\ opener r = false /\ (forall p, closer p r = false).
Proof.
  unfold is_quiet. intros H. apply existsb_exists in H as (k & I & E). apply Nat.eqb_eq in E. subst k.
  unfold quiet_rules in I. cbn [In] in I. repeat (destruct I as [<-|I]; [repeat split; reflexivity|]). destruct I.
Qed.
Lemma quiet_defs l w f : derives l w f -> forallb sym_quiet l = true -> forall p, flat_map (defs p) f = [].
Proof.
  induction 1 as [|ks l x w f Hx D IH|r l w1 f1 w2 f2 D1 IH1 D2 IH2|b l w f D IH|b l w f D IH|b l w f D IH|b l w f D IH|b l w f D IH|b bs l w f Hb D IH];
    intros Q p; cbn [forallb] in Q.
  - reflexivity.
  - cbn [flat_map defs app]. apply IH. exact Q.
  - apply andb_true_iff in Q as [Q1 Q2]. cbn [sym_quiet] in Q1. destruct (quiet_closed r Q1) as (A & B & C).
    cbn [flat_map defs]. rewrite B, C, (IH1 A), (IH2 Q2). reflexivity.
  - apply andb_true_iff in Q as [_ Q]. now apply IH.
  - apply andb_true_iff in Q as [Q1 Q2]. cbn [sym_quiet] in Q1. apply IH. rewrite forallb_app. now rewrite Q1, Q2.
  - apply andb_true_iff in Q as [_ Q]. now apply IH.
  - apply andb_true_iff in Q as [Q1 Q2]. cbn [sym_quiet] in Q1. apply IH. rewrite forallb_app. cbn [forallb sym_quiet]. now rewrite Q1, Q2.
  - apply andb_true_iff in Q as [Q1 Q2]. cbn [sym_quiet] in Q1. apply IH. rewrite forallb_app. cbn [forallb sym_quiet]. now rewrite Q1, Q2.
  - apply andb_true_iff in Q as [Q1 Q2]. cbn [sym_quiet] in Q1. apply IH. rewrite forallb_app. rewrite forallb_forall in Q1. now rewrite (Q1 _ Hb), Q2.
Qed.
Lemma closer_quiet p r : closer p r = true -> forallb sym_quiet (rule r) = true /\ opener r = false.
Proof.
  intros H. assert (I : In r [r_enumField; r_oneofField; r_mapField; r_field]).
  { unfold closer in H. apply orb_true_iff in H as [H|H].
    - apply existsb_exists in H as (k & I & E). apply Nat.eqb_eq in E. subst k. cbn [In] in *. tauto.
    - apply andb_true_iff in H as [H _]. apply Nat.eqb_eq in H. cbn [In]. auto. }
  cbn [In] in I. repeat (destruct I as [<-|I]; [split; reflexivity|]). destruct I.
Qed.

Lemma span_derives l w f : derives l w f -> span f = (hd 0 (starts w), last (starts w) 0).
Proof. intros D. unfold span. now rewrite (derives_starts _ _ _ D). Qed.
Lemma within_app_l u w d : within u d -> within (u ++ w) d.
Proof. intros (A & B & C). unfold within, starts. rewrite map_app, !in_app_iff. auto. Qed.
Lemma within_app_r u w d : within w d -> within (u ++ w) d.
Proof. intros (A & B & C). unfold within, starts. rewrite map_app, !in_app_iff. auto. Qed.
Lemma in_order_app u w : in_order (u ++ w) -> in_order u /\ in_order w /\ forall x y, In x u -> In y w -> t_start x < t_start y.
Proof.
  unfold in_order. induction u as [|a u IH]; cbn [app]; intros H; [repeat split; [constructor|exact H|intros x y []]|].
  apply StronglySorted_inv in H as [H F]. destruct (IH H) as (A & B & C). rewrite Forall_app in F. destruct F as [F G].
  split; [now constructor|]. split; [exact B|]. intros x y [<-|I] J; [|now apply C]. rewrite Forall_forall in G. now apply G.
Qed.
Lemma SS_app {A} (R : A -> A -> Prop) u v : StronglySorted R u -> StronglySorted R v -> (forall x y, In x u -> In y v -> R x y) -> StronglySorted R (u ++ v).
Proof.
  intros H K X. induction H as [|a u Hu IH F]; [exact K|]. cbn. constructor.
  - apply IH. intros x y I. apply X. now right.
  - apply Forall_app. split; [exact F|]. apply Forall_forall. intros y J. apply X; [now left|exact J].
Qed.
(* all tokens in a rule that begins and ends with a token of its own *)
Inductive closes : list sym -> Prop :=
| cl_T ks : closes [T ks]
| cl_N r : opener r = false -> (forall p, closer p r = false) -> closes (rule r) -> closes [N r]
| cl_alt bs : (forall b, In b bs -> closes b) -> closes [Alt bs]
| cl_cons s l : closes l -> closes (s :: l).
Lemma closes_app b l : closes l -> closes (b ++ l).
Proof. intros C. induction b; [exact C|]. now apply cl_cons. Qed.
Lemma closes_nil : ~ closes [].
Proof. intros H. inversion H. Qed.
Lemma closes_tail s l : l <> [] -> closes (s :: l) -> closes l.
Proof. intros NE H. inversion H; subst; congruence. Qed.
Lemma derives_nonempty_closes l w f : derives l w f -> closes l -> w <> [].
Proof.
  induction 1 as [|ks l x w f Hx D IH|r l w1 f1 w2 f2 D1 IH1 D2 IH2|b l w f D IH|b l w f D IH|b l w f D IH|b l w f D IH|b l w f D IH|b bs l w f Hb D IH]; intros C.
  - now apply closes_nil in C.
  - discriminate.
  - destruct l as [|s l].
    + inversion C as [|r' A B K| |s' l' K]; subst; [|now apply closes_nil in K]. specialize (IH1 K). intros E. apply app_eq_nil in E as [E _]. contradiction.
    + apply closes_tail in C; [|discriminate]. specialize (IH2 C). intros E. apply app_eq_nil in E as [_ E]. contradiction.
  - destruct l; [inversion C; subst; now apply closes_nil in H0|]. apply IH. eapply closes_tail; [|exact C]. discriminate.
  - destruct l; [inversion C; subst; now apply closes_nil in H0|]. apply IH. apply closes_app. eapply closes_tail; [|exact C]. discriminate.
  - destruct l; [inversion C; subst; now apply closes_nil in H0|]. apply IH. eapply closes_tail; [|exact C]. discriminate.
  - destruct l; [inversion C; subst; now apply closes_nil in H0|]. apply IH. apply closes_app, cl_cons. eapply closes_tail; [|exact C]. discriminate.
  - destruct l; [inversion C; subst; now apply closes_nil in H0|]. apply IH. apply closes_app, cl_cons. eapply closes_tail; [|exact C]. discriminate.
  - destruct l as [|s l].
    + inversion C as [| |bs' K|s' l' K]; subst; [|now apply closes_nil in K]. rewrite app_nil_r in *. apply IH. now apply K.
    + apply IH. apply closes_app. eapply closes_tail; [|exact C]. discriminate.
Qed.
Lemma hd_last_order w : in_order w -> w <> [] -> within w (hd 0 (starts w), last (starts w) 0).
Proof.
  intros O NE. destruct w as [|x w] using rev_ind; [congruence|]. clear IHw NE. unfold within, starts. rewrite map_app. cbn [map fst snd].
  rewrite last_last. assert (J : In (t_start x) (map t_start w ++ [t_start x])) by (apply in_app_iff; right; now left).
  apply in_order_app in O as (_ & _ & X). destruct w as [|y w]; cbn [map app hd]; [cbn in J; auto|].
  split; [|split; [now left|exact J]]. specialize (X y x (or_introl eq_refl) (or_introl eq_refl)). lia.
Qed.
Lemma opener_begins r : opener r = true -> exists ks l, rule r = T ks :: l /\ closes l.
Proof.
  intros H. unfold opener in H. apply existsb_exists in H as (k & I & E). apply Nat.eqb_eq in E. subst k.
  cbn [In] in I. destruct I as [<-|[<-|[<-|[<-|[]]]]].
  - exists [MESSAGE], [N r_messageName; N r_messageBody]. split; [reflexivity|]. apply cl_cons, cl_N; [reflexivity|intro; reflexivity|].
    change (closes [t LC; Star [N r_messageElement]; t RC]). do 2 apply cl_cons. apply cl_T.
  - exists [ENUM], [N r_enumName; N r_enumBody]. split; [reflexivity|]. apply cl_cons, cl_N; [reflexivity|intro; reflexivity|].
    change (closes [t LC; Star [N r_enumElement]; t RC]). do 2 apply cl_cons. apply cl_T.
  - exists [SERVICE], [N r_serviceName; t LC; Star [N r_serviceElement]; t RC]. split; [reflexivity|]. do 3 apply cl_cons. apply cl_T.
  - exists [RPC], (tl (rule r_rpc)). split; [reflexivity|]. cbn [rule nth grammar tl r_rpc]. do 10 apply cl_cons. apply cl_alt.
    intros b [<-|[<-|[]]]; [do 2 apply cl_cons|]; apply cl_T.
Qed.
Lemma closer_begins p r w f : closer p r = true -> derives (rule r) w f -> w <> [].
Proof.
  intros H D. apply (derives_nonempty_closes _ _ _ D).
  assert (I : In r [r_enumField; r_oneofField; r_mapField; r_field]).
  { unfold closer in H. apply orb_true_iff in H as [H|H].
    - apply existsb_exists in H as (k & I & E). apply Nat.eqb_eq in E. subst k. cbn [In] in *. tauto.
    - apply andb_true_iff in H as [H _]. apply Nat.eqb_eq in H. cbn [In]. auto. }
  cbn [In] in I. destruct I as [<-|[<-|[<-|[<-|[]]]]].
  - change (closes [N r_ident; t EQ; Opt [t MINUS]; N r_intLit; Opt [N r_enumValueOptions]; t SEMI]). do 5 apply cl_cons. apply cl_T.
  - change (closes [N r_fieldType; N r_fieldName; t EQ; N r_fieldNumber; options_in_brackets; t SEMI]). do 5 apply cl_cons. apply cl_T.
  - change (closes [t MAP; t LT; N r_keyType; t COMMA; N r_fieldType; t GT; N r_fieldName; t EQ; N r_fieldNumber; options_in_brackets; t SEMI]).
    do 10 apply cl_cons. apply cl_T.
  - change (closes [Opt [N r_fieldLabel]; N r_fieldType; N r_fieldName; t EQ; N r_fieldNumber; options_in_brackets; t SEMI]). do 6 apply cl_cons. apply cl_T.
Qed.
Lemma defs_within l w f : derives l w f -> in_order w -> forall p, Forall (within w) (flat_map (defs p) f).
Proof.
  induction 1 as [|ks l x w f Hx D IH|r l w1 f1 w2 f2 D1 IH1 D2 IH2|b l w f D IH|b l w f D IH|b l w f D IH|b l w f D IH|b l w f D IH|b bs l w f Hb D IH];
    intros O p; try (now apply IH).
  - constructor.
  - cbn [flat_map defs app]. change (x :: w) with ([x] ++ w) in *. apply in_order_app in O as (_ & O & _).
    eapply Forall_impl; [|exact (IH O p)]. apply within_app_r.
  - apply in_order_app in O as (O1 & O2 & _). cbn [flat_map defs]. rewrite (span_derives _ _ _ D1). apply Forall_app. split.
    + eapply Forall_impl; [apply within_app_l|]. apply Forall_app. split; [|apply Forall_app; split; [now apply IH1|]].
      * destruct (opener r) eqn:E; [|constructor]. constructor; [|constructor]. apply hd_last_order; [exact O1|].
        destruct (opener_begins r E) as (ks & l' & R & _). rewrite R in D1. apply i_T in D1 as (x & w' & f' & -> & _). discriminate.
      * destruct (closer p r) eqn:E; [|constructor]. constructor; [|constructor]. apply hd_last_order; [exact O1|]. exact (closer_begins p r _ _ E D1).
    + eapply Forall_impl; [apply within_app_r|]. now apply IH2.
Qed.
Lemma closes_within l w f : derives l w f -> in_order w -> closes l -> forall p, exists v z, w = v ++ [z] /\ Forall (within v) (flat_map (defs p) f).
Proof.
  induction 1 as [|ks l x w f Hx D IH|r l w1 f1 w2 f2 D1 IH1 D2 IH2|b l w f D IH|b l w f D IH|b l w f D IH|b l w f D IH|b l w f D IH|b bs l w f Hb D IH];
    intros O C p.
  - now apply closes_nil in C.
  - destruct l as [|s l].
    + apply i_nil in D as [-> ->]. exists [], x. split; [reflexivity|constructor].
    + apply closes_tail in C; [|discriminate]. change (x :: w) with ([x] ++ w) in O. apply in_order_app in O as (_ & O & _).
      destruct (IH O C p) as (v & z & -> & F). exists (x :: v), z. split; [reflexivity|]. cbn [flat_map defs app].
      eapply Forall_impl; [|exact F]. apply (within_app_r [x]).
  - destruct l as [|s l].
    + apply i_nil in D2 as [-> ->]. rewrite app_nil_r in *. inversion C as [|r' A B K| |s' l' K]; subst; [|now apply closes_nil in K].
      destruct (IH1 O K r) as (v & z & -> & F). exists v, z. split; [reflexivity|]. cbn [flat_map defs]. rewrite A, B, !app_nil_r. exact F.
    + apply closes_tail in C; [|discriminate]. apply in_order_app in O as (O1 & O2 & _). destruct (IH2 O2 C p) as (v & z & -> & F).
      exists (w1 ++ v), z. split; [apply app_assoc|]. change (Node r f1 :: f2) with ([Node r f1] ++ f2). rewrite flat_map_app. apply Forall_app. split.
      * eapply Forall_impl; [apply within_app_l|]. apply (defs_within [N r] w1); [|exact O1]. rewrite <- (app_nil_r w1). constructor; [exact D1|constructor].
      * eapply Forall_impl; [apply within_app_r|]. exact F.
  - destruct l; [inversion C; subst; now apply closes_nil in H0|]. apply IH; [exact O|]. eapply closes_tail; [|exact C]. discriminate.
  - destruct l; [inversion C; subst; now apply closes_nil in H0|]. apply IH; [exact O|]. apply closes_app. eapply closes_tail; [|exact C]. discriminate.
  - destruct l; [inversion C; subst; now apply closes_nil in H0|]. apply IH; [exact O|]. eapply closes_tail; [|exact C]. discriminate.
  - destruct l; [inversion C; subst; now apply closes_nil in H0|]. apply IH; [exact O|]. apply closes_app, cl_cons. eapply closes_tail; [|exact C]. discriminate.
  - destruct l; [inversion C; subst; now apply closes_nil in H0|]. apply IH; [exact O|]. apply closes_app, cl_cons. eapply closes_tail; [|exact C]. discriminate.
  - destruct l as [|s l].
    + inversion C as [| |bs' K|s' l' K]; subst; [|now apply closes_nil in K]. rewrite app_nil_r in *. apply IH; [exact O|]. now apply K.
    + apply IH; [exact O|]. apply closes_app. eapply closes_tail; [|exact C]. discriminate.
Qed.
Lemma within_lt u w d e : (forall x y, In x u -> In y w -> t_start x < t_start y) -> within u d -> within w e -> snd d < fst e.
Proof.
  intros X (_ & _ & B) (_ & C & _). unfold starts in *. apply in_map_iff in B as (x & <- & I). apply in_map_iff in C as (y & <- & J). now apply X.
Qed.
Lemma defs_order l w f : derives l w f -> in_order w -> forall p, StronglySorted after (flat_map (defs p) f).
Proof.
  induction 1 as [|ks l x w f Hx D IH|r l w1 f1 w2 f2 D1 IH1 D2 IH2|b l w f D IH|b l w f D IH|b l w f D IH|b l w f D IH|b l w f D IH|b bs l w f Hb D IH];
    intros O p; try (now apply IH).
  - constructor.
  - cbn [flat_map defs app]. change (x :: w) with ([x] ++ w) in *. apply in_order_app in O as (_ & O & _). now apply IH.
  - apply in_order_app in O as (O1 & O2 & X). change (Node r f1 :: f2) with ([Node r f1] ++ f2). rewrite flat_map_app. apply SS_app.
    + cbn [flat_map]. rewrite app_nil_r. cbn [defs]. destruct (closer p r) eqn:E.
      * destruct (closer_quiet p r E) as [Q ->]. rewrite (quiet_defs _ _ _ D1 Q). cbn. repeat constructor.
      * rewrite app_nil_r. destruct (opener r) eqn:Eo; [|now apply IH1]. apply SS_app; [repeat constructor|now apply IH1|].
        intros d e [<-|[]] I. rewrite (span_derives _ _ _ D1). destruct (opener_begins r Eo) as (ks & l' & R & C). rewrite R in D1.
        apply i_T in D1 as (x & w' & f' & -> & -> & _ & D'). apply in_order_app in O1 as (_ & O' & X').
        destruct (closes_within _ _ _ D' O' C r) as (v & z & -> & F). cbn [flat_map defs app] in I. rewrite Forall_forall in F. specialize (F e I).
        unfold after, starts. rewrite map_app. cbn [map app hd fst snd]. right. destruct F as (_ & A & B). split.
        { apply in_map_iff in A as (y & <- & J). apply X'; [now left|]. apply in_app_iff. now left. }
        replace (t_start x :: map t_start (v ++ [z])) with ((t_start x :: map t_start v) ++ [t_start z]) by (now rewrite map_app).
        rewrite last_last. apply in_order_app in O' as (_ & _ & Y). apply in_map_iff in B as (y & <- & J). apply Y; [exact J|now left].
    + now apply IH2.
    + intros d e I J. left. eapply within_lt; [exact X| |].
      * assert (W : derives [N r] w1 [Node r f1]) by (rewrite <- (app_nil_r w1); constructor; [exact D1|constructor]).
        pose proof (defs_within _ _ _ W O1 p) as F. rewrite Forall_forall in F. now apply F.
      * pose proof (defs_within _ _ _ D2 O2 p) as F. rewrite Forall_forall in F. now apply F.
Qed.
