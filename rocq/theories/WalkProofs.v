(** Proofs for C81: the calls of the listeners are those of a file that the tokens spell. *)
From Coq Require Import List Arith Bool ZArith Lia Strings.String Init.Byte.
From Verif Require Import Base GoStr GenField Verify StrLit Listen Atn LexFile ParserNames Parser Walk ParserSpec SpellSpec ParserProofs.
Import ListNotations StringSyntax.
Open Scope nat_scope.
Local Opaque rule GetText.

(* ---------- derivations taken apart ---------- *)
Lemma i_nil w f : derives [] w f -> w = [] /\ f = [].
Proof. intros D. inversion D; auto. Qed.
Lemma i_T ks l w f : derives (T ks :: l) w f -> exists x w' f', w = [x] ++ w' /\ f = Leaf x :: f' /\ In (t_kind x) ks /\ derives l w' f'.
Proof. intros D. inversion D; subst. repeat eexists; eauto. Qed.
Lemma i_N r l w f : derives (N r :: l) w f -> exists w1 f1 w2 f2, w = w1 ++ w2 /\ f = Node r f1 :: f2 /\ derives (rule r) w1 f1 /\ derives l w2 f2.
Proof. intros D. inversion D; subst. repeat eexists; eauto. Qed.
Lemma i_opt b l w f : derives (Opt b :: l) w f -> derives l w f \/ derives (b ++ l) w f.
Proof. intros D. inversion D; subst; auto. Qed.
Lemma i_alt bs l w f : derives (Alt bs :: l) w f -> exists b, In b bs /\ derives (b ++ l) w f.
Proof. intros D. inversion D; subst; eauto. Qed.
Definition pieces (b : list sym) (ps : list (list tok * list tree)) : Prop := Forall (fun p => derives b (fst p) (snd p)) ps.
Lemma i_star b l w f : derives (Star b :: l) w f -> exists ps w2 f2, pieces b ps /\
  w = concat (map fst ps) ++ w2 /\ f = concat (map snd ps) ++ f2 /\ derives l w2 f2.
Proof.
  intros D. remember (Star b :: l) as m eqn:E. revert E.
  (* the number of the turns is not known: by induction on the derivation of the rest *)
  assert (H : forall m w f, derives m w f -> forall n, m = n ++ Star b :: l -> exists w0 f0 ps w2 f2,
    derives n w0 f0 /\ pieces b ps /\ w = w0 ++ concat (map fst ps) ++ w2 /\ f = f0 ++ concat (map snd ps) ++ f2 /\ derives l w2 f2).
  { clear. intros m w f D. induction D; intros n E.
    - destruct n; discriminate.
    - destruct n as [|s n]; [discriminate|]. injection E as <- E. destruct (IHD _ E) as (w0 & f0 & ps & w2 & f2 & A & P & -> & -> & B).
      exists (x :: w0), (Leaf x :: f0), ps, w2, f2. repeat split; auto. now constructor.
    - destruct n as [|s n]; [discriminate|]. injection E as <- E. destruct (IHD2 _ E) as (w0 & f0 & ps & w3 & f3 & A & P & -> & -> & B).
      exists (w1 ++ w0), (Node r f1 :: f0), ps, w3, f3. rewrite <- app_assoc. repeat split; auto. now constructor.
    - destruct n as [|s n]; [discriminate|]. injection E as <- E. destruct (IHD _ E) as (w0 & f0 & ps & w2 & f2 & A & P & -> & -> & B).
      exists w0, f0, ps, w2, f2. repeat split; auto. now apply d_opt_no.
    - destruct n as [|s n]; [discriminate|]. injection E as <- E.
      destruct (IHD (b0 ++ n)) as (w0 & f0 & ps & w2 & f2 & A & P & -> & -> & B); [rewrite <- app_assoc; now f_equal|].
      exists w0, f0, ps, w2, f2. repeat split; auto. now apply d_opt.
    - destruct n as [|s n].
      + injection E as -> ->. exists [], [], [], w, f. repeat split; auto; constructor.
      + injection E as <- E. destruct (IHD _ E) as (w0 & f0 & ps & w2 & f2 & A & P & -> & -> & B).
        exists w0, f0, ps, w2, f2. repeat split; auto. now apply d_star_end.
    - destruct n as [|s n].
      + injection E as -> ->. destruct (IHD b eq_refl) as (w0 & f0 & ps & w2 & f2 & A & P & -> & -> & B).
        exists [], [], ((w0, f0) :: ps), w2, f2. cbn. rewrite !app_assoc. repeat split; auto; constructor; auto.
      + injection E as <- E.
        destruct (IHD (b0 ++ Star b0 :: n)) as (w0 & f0 & ps & w2 & f2 & A & P & -> & -> & B); [rewrite <- app_assoc; cbn; now rewrite E|].
        exists w0, f0, ps, w2, f2. repeat split; auto. now apply d_star.
    - destruct n as [|s n]; [discriminate|]. injection E as <- E.
      destruct (IHD (b0 ++ Star b0 :: n)) as (w0 & f0 & ps & w2 & f2 & A & P & -> & -> & B); [rewrite <- app_assoc; cbn; now rewrite E|].
      exists w0, f0, ps, w2, f2. repeat split; auto. now apply d_plus.
    - destruct n as [|s n]; [discriminate|]. injection E as <- E.
      destruct (IHD (b0 ++ n)) as (w0 & f0 & ps & w2 & f2 & A & P & -> & -> & B); [rewrite <- app_assoc; now f_equal|].
      exists w0, f0, ps, w2, f2. repeat split; auto. now apply (d_alt b0 bs). }
  intros ->. destruct (H _ _ _ D [] eq_refl) as (w0 & f0 & ps & w2 & f2 & A & P & -> & -> & B). apply i_nil in A as [-> ->].
  exists ps, w2, f2. auto.
Qed.

(* ---------- texts, parts ---------- *)
Lemma says_app a b : says (a ++ b) = says a ++ says b.
Proof. apply flat_map_app. Qed.
Lemma derives_text l w f : derives l w f -> flat_map get_text f = says w.
Proof.
  induction 1; auto.
  - cbn [flat_map get_text says]. unfold says in IHderives. now rewrite IHderives.
  - cbn [flat_map get_text]. now rewrite IHderives1, IHderives2, says_app.
Qed.
Lemma derives_starts l w f : derives l w f -> flat_map get_starts f = map t_start w.
Proof.
  induction 1; auto.
  - cbn. now rewrite IHderives.
  - cbn [flat_map get_starts]. now rewrite IHderives1, IHderives2, map_app.
Qed.
Lemma rule_part q w f : derives (rule q) w f -> part q w.
Proof. intros D. exists [Node q f]. rewrite <- (app_nil_r w). constructor; [exact D|constructor]. Qed.
Lemma rule_named q w f : derives (rule q) w f -> named q (get_text (Node q f)) w.
Proof. intros D. split; [eapply rule_part; eauto|]. symmetry. cbn [get_text]. eapply derives_text; eauto. Qed.

(* ---------- the calls ---------- *)
Definition evs (r : nat) (f : list tree) : option (list event) := fold_right (fun y => cat (events r y)) (Some []) f.
Lemma cat_nil_l a : cat (Some []) a = a.
Proof. destruct a; reflexivity. Qed.
Lemma cat_nil_r a : cat a (Some []) = a.
Proof. destruct a; cbn; [now rewrite app_nil_r|reflexivity]. Qed.
Lemma cat_assoc a b c : cat a (cat b c) = cat (cat a b) c.
Proof. destruct a, b, c; cbn; auto. now rewrite app_assoc. Qed.
Lemma evs_cons r y f : evs r (y :: f) = cat (events r y) (evs r f).
Proof. reflexivity. Qed.
Lemma evs_app r f g : evs r (f ++ g) = cat (evs r f) (evs r g).
Proof. induction f as [|y f IH]; cbn [app]; [now rewrite cat_nil_l|]. now rewrite !evs_cons, IH, cat_assoc. Qed.
Lemma events_node p r l : events p (Node r l) = cat (enter p r l) (cat (evs r l) (exit p r l)).
Proof. reflexivity. Qed.
Lemma evs_leaf r x f : evs r (Leaf x :: f) = evs r f.
Proof. rewrite evs_cons. apply cat_nil_l. Qed.

(** the rules below which no listener is called *)
Definition loud_rules : list nat :=
  [r_proto; r_edition; r_importStatement; r_packageStatement; r_optionStatement; r_field; r_oneof; r_oneofField; r_mapField;
   r_reserved; r_topLevelDef; r_enumDef; r_enumBody; r_enumElement; r_enumField; r_messageDef; r_messageBody; r_messageElement;
   r_extendDef; r_serviceDef; r_serviceElement; r_rpc].
Definition loud (q : nat) : bool := existsb (Nat.eqb q) loud_rules.
Fixpoint quiet (s : sym) : bool :=
  match s with
  | T _ => true
  | N q => negb (loud q)
  | Opt b | Star b | Plus b => forallb quiet b
  | Alt bs => forallb (forallb quiet) bs
  end.
Lemma quiet_rules : forallb (fun q => loud q || forallb quiet (rule q)) (seq 0 53) = true.
Proof. vm_compute. reflexivity. Qed.
Lemma quiet_rule q : loud q = false -> forallb quiet (rule q) = true.
Proof.
  intros L. destruct (Nat.lt_ge_cases q 53) as [Lt|G].
  - pose proof quiet_rules as A. rewrite forallb_forall in A. specialize (A q).
    rewrite in_seq in A. specialize (A ltac:(lia)). rewrite L in A. exact A.
  - with_strategy transparent [rule] unfold rule. now rewrite nth_overflow.
Qed.
Lemma quiet_calls p q l : loud q = false -> enter p q l = Some [] /\ exit p q l = Some [].
Proof.
  unfold loud, loud_rules. cbn [existsb]. rewrite !orb_false_iff. intros H. decompose [and] H.
  unfold enter, exit. repeat match goal with E : (q =? _) = false |- _ => rewrite E; clear E end. auto.
Qed.
Lemma quiet_events l w f : derives l w f -> forallb quiet l = true -> forall r, evs r f = Some [].
Proof.
  induction 1; intros Q r0; cbn [forallb quiet] in Q; try (apply andb_true_iff in Q as [Q1 Q2]).
  - reflexivity.
  - rewrite evs_leaf. auto.
  - apply negb_true_iff in Q1. rewrite evs_cons, events_node, IHderives1 by now apply quiet_rule.
    destruct (quiet_calls r0 r f1 Q1) as [-> ->]. now rewrite IHderives2.
  - auto.
  - apply IHderives. rewrite forallb_app. now rewrite Q1, Q2.
  - auto.
  - apply IHderives. rewrite forallb_app. cbn [forallb quiet]. now rewrite Q1, Q2.
  - apply IHderives. rewrite forallb_app. cbn [forallb quiet]. now rewrite Q1, Q2.
  - apply IHderives. rewrite forallb_app, Q2. rewrite forallb_forall in Q1. now rewrite (Q1 _ H).
Qed.
Lemma quiet_node p r w f : derives (rule r) w f -> forallb quiet (rule r) = true ->
  events p (Node r f) = cat (enter p r f) (exit p r f).
Proof. intros D Q. now rewrite events_node, (quiet_events _ _ _ D Q), cat_nil_l. Qed.

(* ---------- accessors ---------- *)
Fixpoint calls (q : nat) (s : sym) : bool :=
  match s with
  | T _ => false
  | N r => r =? q
  | Opt b | Star b | Plus b => existsb (calls q) b
  | Alt bs => existsb (existsb (calls q)) bs
  end.
Lemma no_contexts q l w f : derives l w f -> existsb (calls q) l = false -> contexts q f = [].
Proof.
  induction 1; intros Q; cbn [existsb calls] in Q; try (apply orb_false_iff in Q as [Q1 Q2]).
  - reflexivity.
  - apply IHderives. exact Q2.
  - unfold contexts. cbn [filter]. rewrite Q1. now apply IHderives2.
  - auto.
  - apply IHderives. rewrite existsb_app. now rewrite Q1, Q2.
  - auto.
  - apply IHderives. rewrite existsb_app. cbn [existsb calls]. now rewrite Q1, Q2.
  - apply IHderives. rewrite existsb_app. cbn [existsb calls]. now rewrite Q1, Q2.
  - apply IHderives. rewrite existsb_app, Q2, orb_false_r. destruct (existsb (calls q) b) eqn:E; [|reflexivity].
    rewrite <- Q1. symmetry. apply existsb_exists. eauto.
Qed.
Fixpoint reads (k : Z) (s : sym) : bool :=
  match s with
  | T ks => mem k ks
  | N r => false
  | Opt b | Star b | Plus b => existsb (reads k) b
  | Alt bs => existsb (existsb (reads k)) bs
  end.
Lemma no_tokens k l w f : derives l w f -> existsb (reads k) l = false -> tokens k f = [].
Proof.
  induction 1; intros Q; cbn [existsb reads] in Q; try (apply orb_false_iff in Q as [Q1 Q2]).
  - reflexivity.
  - cbn [tokens flat_map]. destruct (Z.eqb_spec (t_kind x) k) as [E|E]; [|now apply IHderives].
    exfalso. subst k. rewrite <- not_true_iff_false in Q1. apply Q1. now apply mem_In.
  - now apply IHderives2.
  - auto.
  - apply IHderives. rewrite existsb_app. now rewrite Q1, Q2.
  - auto.
  - apply IHderives. rewrite existsb_app. cbn [existsb reads]. now rewrite Q1, Q2.
  - apply IHderives. rewrite existsb_app. cbn [existsb reads]. now rewrite Q1, Q2.
  - apply IHderives. rewrite existsb_app, Q2, orb_false_r. destruct (existsb (reads k) b) eqn:E; [|reflexivity].
    rewrite <- Q1. symmetry. apply existsb_exists. eauto.
Qed.
Lemma contexts_app q f g : contexts q (f ++ g) = contexts q f ++ contexts q g.
Proof. apply filter_app. Qed.
Lemma tokens_app k f g : tokens k (f ++ g) = tokens k f ++ tokens k g.
Proof. apply flat_map_app. Qed.
