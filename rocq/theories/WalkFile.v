(** Proofs for C81, continued: the places of tokens, and what is spelled is a sentence. *)
From Coq Require Import List Arith Bool ZArith Lia Strings.String Init.Byte Sorted.
From Verif Require Import Base GoStr GenField Verify StrLit Listen ListenSpec Atn LexSpec LexFileSpec LexFile ParserNames Parser Walk ParserSpec SpellSpec.
From Verif Require Import StrLitSpec StrLitProofs LexDfa LexProofs LexFileProofs Props_Lex ParserProofs Props_Parser WalkProofs WalkNodes WalkDefs.
Import ListNotations StringSyntax.
Open Scope nat_scope.
Local Opaque rule GetText get_text look.

(* ---------- the tokens of a file ---------- *)
Definition in_order (w : list tok) : Prop := StronglySorted (fun x y => t_start x < t_start y) w.
Definition with_text (w : list tok) : Prop := Forall (fun x => t_kind x = EOF \/ t_text x <> []) w.
Lemma in_order_app a b : in_order (a ++ b) -> in_order a /\ in_order b /\ forall x y, In x a -> In y b -> t_start x < t_start y.
Proof.
  unfold in_order. induction a as [|z a IH]; cbn [app]; intros S.
  - split; [constructor|]. split; [exact S|]. intros x y [].
  - apply StronglySorted_inv in S as [S F]. destruct (IH S) as (A & B & C). apply Forall_app in F as [F1 F2]. split; [now constructor|].
    split; [exact B|]. intros x y [<-|I] J; [|now apply C]. rewrite Forall_forall in F2. now apply F2.
Qed.
Lemma placed_after l : forall i, Forall (fun p => snd p <> []) l -> Forall (fun x => i <= t_start x) (placed i l).
Proof.
  induction l as [|[k x] l IH]; intros i F; cbn [placed].
  - repeat constructor.
  - apply Forall_cons_iff in F as [_ F]. apply Forall_app. split.
    + destruct (channel_of k =? 0)%Z; repeat constructor.
    + eapply Forall_impl; [|exact (IH _ F)]. cbn. intros a. lia.
Qed.
Lemma placed_ok l : forall i, Forall (fun p => first_kind (fst p) (snd p)) l -> Forall (fun p => snd p <> []) l ->
  lexed (placed i l) /\ with_text (placed i l) /\ in_order (placed i l).
Proof.
  induction l as [|[k x] l IH]; intros i F F'; cbn [placed].
  - repeat constructor.
  - apply Forall_cons_iff in F as [Fk F]. apply Forall_cons_iff in F' as [Fx F']. cbn [fst snd] in *.
    destruct (IH (i + List.length x) F F') as (A & B & C). pose proof (placed_after l (i + List.length x) F') as D.
    destruct (channel_of k =? 0)%Z; [|auto]. split; [|split].
    + constructor; auto.
    + constructor; auto.
    + constructor; [exact C|]. eapply Forall_impl; [|exact D]. cbn. intros a.
      assert (0 < List.length x) by (destruct x; [congruence|cbn; lia]). lia.
Qed.
Lemma tokenized_texts s l : tokenized s l -> Forall (fun p => snd p <> []) l.
Proof. induction 1 as [|k t rest l (A & _) Tk IH]; constructor; auto. Qed.

(* ---------- parsed ---------- *)
Lemma GetText_not_empty t : t <> [] -> GetText t <> [].
Proof.
  with_strategy transparent [GetText] unfold GetText. destruct t as [|c t]; [congruence|]. intros _. cbn [flat_map].
  unfold EncodeRune. repeat match goal with |- context [if ?b then _ else _] => destruct b end; discriminate.
Qed.
Lemma package_not_empty n w : named r_fullIdent n w -> with_text w -> n <> [].
Proof.
  intros [[f D] <-] F. inv D. inv D. rewrite app_nil_r in *. destruct (not_empty _ _ _ A) as (y & r & ->); [vm_compute; reflexivity|].
  apply derives_first in A. cbn [first_ok] in A. apply Forall_inv in F. destruct F as [F|F].
  - rewrite F in A. vm_compute in A. intuition discriminate.
  - intros E. apply app_eq_nil in E as [E _]. now apply (GetText_not_empty _ F).
Qed.
Ltac unspell H :=
  repeat match type of H with
  | spell (_ :: _) _ => let a := fresh "a" in let b := fresh "b" in let S := fresh "S" in
      cbn [spell] in H; destruct H as (a & b & -> & S & H); try fold spell in H
  end.
Lemma rpc_is_ordered r w : rpc_is r w -> in_order w -> rpc_ordered r.
Proof.
  unfold rpc_is. intros H O. cbn [spell] in H.
  destruct H as (a1 & b1 & -> & _ & a2 & b2 & -> & _ & a3 & b3 & -> & _ & a4 & b4 & -> & S4 & a5 & b5 & -> & S5 & a6 & b6 & -> & S6 &
    a7 & b7 & -> & S7 & a8 & b8 & -> & S8 & a9 & b9 & -> & S9 & a10 & b10 & -> & S10 & _).
  apply in_order_app in O as (_ & O & _). apply in_order_app in O as (_ & O & _). apply in_order_app in O as (_ & O & _).
  apply in_order_app in O as (_ & O & O4). apply in_order_app in O as (_ & O & O5). apply in_order_app in O as (_ & O & _).
  apply in_order_app in O as (_ & O & _). apply in_order_app in O as (_ & O & _). apply in_order_app in O as (_ & O & O9).
  destruct S5 as (_ & y5 & r5 & -> & E5). destruct S10 as (_ & y10 & r10 & -> & E10). unfold rpc_ordered. rewrite <- E5, <- E10.
  assert (I5 : In y5 (y5 :: r5)) by now left. assert (I10 : In y10 (y10 :: r10)) by now left.
  split; [|split].
  - destruct (sr_sreq r) as [p|]; [|exact Logic.I]. destruct S4 as (x & -> & _ & <-). apply O4; [now left|apply in_app_iff; auto].
  - apply O5; [exact I5|]. rewrite !in_app_iff. auto 10.
  - destruct (sr_sret r) as [p|]; [|exact Logic.I]. destruct S9 as (x & -> & _ & <-). split.
    + apply O5; [exact I5|]. rewrite !in_app_iff. cbn. auto 10.
    + apply O9; [now left|apply in_app_iff; auto].
Qed.
Lemma several_rpcs l w : several service_elem_is l w -> in_order w -> Forall rpc_ordered (service_rpcs l).
Proof.
  induction 1 as [|e l a b S R IH]; intros O; [constructor|]. apply in_order_app in O as (Oa & Ob & _).
  unfold service_rpcs in *. cbn [flat_map]. apply Forall_app. split; [|auto].
  destruct e; constructor; [|constructor]. eapply rpc_is_ordered; eauto.
Qed.
Lemma spelled_parsed f w : file_is f w -> in_order w -> with_text w -> parsed f.
Proof.
  unfold file_is, parsed. intros H O F. cbn [spell] in H. destruct H as (a1 & b1 & -> & _ & a2 & b2 & -> & S & _).
  apply in_order_app in O as (_ & O & _). apply in_order_app in O as (O & _ & _).
  apply Forall_app in F as [_ F]. apply Forall_app in F as [F _].
  induction S as [|d l a b S R IH]; [constructor|]. apply in_order_app in O as (Oa & Ob & _). apply Forall_app in F as [Fa Fb].
  constructor; [|auto]. destruct d; auto; cbn [top_is] in S.
  - cbn [spell] in S. destruct S as (c1 & d1 & -> & _ & c2 & d2 & -> & S & _). apply Forall_app in Fa as [_ Fa]. apply Forall_app in Fa as [Fa _].
    eapply package_not_empty; eauto.
  - unfold service_is in S. cbn [spell] in S. destruct S as (c1 & d1 & -> & _ & c2 & d2 & -> & _ & c3 & d3 & -> & _ & c4 & d4 & -> & S & _).
    apply in_order_app in Oa as (_ & Oa & _). apply in_order_app in Oa as (_ & Oa & _). apply in_order_app in Oa as (_ & Oa & _).
    apply in_order_app in Oa as (Oa & _ & _). eapply several_rpcs; eauto.
Qed.

(* ---------- what is spelled is a sentence ---------- *)
Definition der (l : list sym) (w : list tok) : Prop := exists f, derives l w f.
Lemma der_nil : der [] [].
Proof. eexists. constructor. Qed.
Lemma der_app l m a b : der l a -> der m b -> der (l ++ m) (a ++ b).
Proof. intros [f A] [g B]. eexists. eapply derives_app; eauto. Qed.
Lemma der_kw k ks l a b : kw k a -> In k ks -> der l b -> der (T ks :: l) (a ++ b).
Proof. intros (x & -> & <-) I [f D]. eexists. cbn [app]. constructor; eauto. Qed.
Lemma der_part q l a b : part q a -> der l b -> der (N q :: l) (a ++ b).
Proof. intros A B. apply (der_app [N q] l a b); auto. Qed.
Lemma der_named q s l a b : named q s a -> der l b -> der (N q :: l) (a ++ b).
Proof. intros [A _]. now apply der_part. Qed.
Lemma der_rule q w : der (rule q) w -> part q w.
Proof. intros [f D]. eapply rule_part; eauto. Qed.
Lemma der_opt_no b l w : der l w -> der (Opt b :: l) w.
Proof. intros [f D]. exists f. now apply d_opt_no. Qed.
Lemma der_opt b l w : der (b ++ l) w -> der (Opt b :: l) w.
Proof. intros [f D]. exists f. now apply d_opt. Qed.
Lemma der_end b l w : der l w -> der (Star b :: l) w.
Proof. intros [f D]. exists f. now apply d_star_end. Qed.
Lemma der_star b l u w : der b u -> der (Star b :: l) w -> der (Star b :: l) (u ++ w).
Proof. intros A B. destruct (der_app _ _ _ _ A B) as [f D]. exists f. now apply d_star. Qed.
Lemma der_alt b bs l w : In b bs -> der (b ++ l) w -> der (Alt bs :: l) w.
Proof. intros I [f D]. exists f. now apply (d_alt b bs). Qed.
Lemma der_last q w : part q w -> der [N q] w.
Proof. auto. Qed.
Lemma der_kw1 k ks w : kw k w -> In k ks -> der [T ks] w.
Proof. intros K I. rewrite <- (app_nil_r w). eapply der_kw; eauto. apply der_nil. Qed.
Ltac rule_is q := apply der_rule; let e := eval vm_compute in (rule q) in match goal with |- der _ ?w => change (der e w) end.
Ltac pick_alt b := eapply (der_alt b); [cbn [In]; tauto|cbn [app]].
Lemma der_commas {A} (P : A -> list tok -> Prop) q l m w w' : (forall x w, P x w -> part q w) -> commas P l w -> der m w' ->
  exists a b, w = a ++ b /\ part q a /\ der (Star [T [COMMA]; N q] :: m) (b ++ w').
Proof.
  intros H. revert w. induction l as [|x l IH]; intros w C M; [destruct C|]. destruct l as [|y l].
  - exists w, []. rewrite app_nil_r. split; [reflexivity|]. split; [eapply H; exact C|]. now apply der_end.
  - change (spell [P x; kw COMMA; commas P (y :: l)] w) in C. cbn [spell] in C. destruct C as (a & b & -> & Px & c & d & -> & K & e & f & -> & C & ->).
    rewrite app_nil_r. destruct (IH e C M) as (a2 & b2 & -> & P2 & D2). exists a, (c ++ a2 ++ b2). split; [reflexivity|]. split; [eapply H; exact Px|].
    rewrite <- !app_assoc. rewrite (app_assoc c a2). apply der_star; [|exact D2]. eapply der_kw; [exact K|now left|now apply der_last].
Qed.
Lemma commas_part {A} (P : A -> list tok -> Prop) q l m w w' : (forall x w, P x w -> part q w) -> commas P l w -> der m w' ->
  der ([N q; Star [T [COMMA]; N q]] ++ m) (w ++ w').
Proof.
  intros H C M. destruct (der_commas P q l m w w' H C M) as (a & b & -> & Pa & D). rewrite <- app_assoc. now apply der_part.
Qed.
(** assignments, in the brackets of fields and of enum values *)
Lemma assign_der o w : assignment o w -> der [N r_optionName; T [EQ]; N r_constant] w.
Proof.
  unfold assignment. cbn [spell]. intros (a & b & -> & [A _] & c & d & -> & K & e & f & -> & [B _] & ->).
  rewrite app_nil_r. apply der_part; [exact A|]. eapply der_kw; [exact K|now left|]. now apply der_last.
Qed.
Lemma fieldOption_part o w : assignment o w -> part r_fieldOption w.
Proof. intros A. rule_is r_fieldOption. now apply (assign_der o). Qed.
Lemma enumValueOption_part o w : assignment o w -> part r_enumValueOption w.
Proof. intros A. rule_is r_enumValueOption. now apply (assign_der o). Qed.
Lemma option_part o w : option_statement o w -> part r_optionStatement w.
Proof.
  unfold option_statement. cbn [spell]. intros (a & b & -> & K1 & c & d & -> & A & e & f & -> & K2 & ->). rewrite app_nil_r.
  rule_is r_optionStatement. eapply der_kw; [exact K1|now left|]. 
  apply (der_app [N r_optionName; T [EQ]; N r_constant] [T [SEMI]]); [now apply (assign_der o)|]. eapply der_kw1; [exact K2|now left].
Qed.
Lemma fieldOptions_part oo w : commas assignment oo w -> part r_fieldOptions w.
Proof.
  intros C. rule_is r_fieldOptions. rewrite <- (app_nil_r w). apply (commas_part assignment r_fieldOption oo [] w []); auto using der_nil.
  intros x v. apply fieldOption_part.
Qed.
Lemma field_end_der f w : field_end f w -> der field_rest w.
Proof.
  unfold field_end. cbn [spell]. intros (a & b & -> & [N1 _] & c & d & -> & K1 & e & f0 & -> & [N2 _] & g & h & -> & B & i & j & -> & K2 & ->).
  rewrite app_nil_r. apply der_part; [exact N1|]. eapply der_kw; [exact K1|now left|].
  apply der_part. { rule_is r_fieldNumber. now apply der_last. }
  unfold options_in_brackets, t. destruct (sf_options f) as [|o oo].
  - cbn in B. subst g. apply der_opt_no. eapply der_kw1; [exact K2|now left].
  - cbn [brackets] in B. cbn [spell] in B. destruct B as (a1 & b1 & -> & K3 & a2 & b2 & -> & C & a3 & b3 & -> & K4 & ->).
    rewrite app_nil_r. apply der_opt. cbn [app]. rewrite <- !app_assoc. eapply der_kw; [exact K3|now left|].
    apply der_part; [eapply fieldOptions_part; exact C|]. eapply der_kw; [exact K4|now left|]. eapply der_kw1; [exact K2|now left].
Qed.
Lemma field_part x w : field_is x w -> part r_field w.
Proof.
  unfold field_is. cbn [spell]. intros (a & b & -> & L & c & d & -> & [N1 _] & e & f & -> & E & ->). rewrite app_nil_r.
  apply der_rule. change (rule r_field) with ([Opt [N r_fieldLabel]; N r_fieldType] ++ field_rest). cbn [app].
  assert (D : der (N r_fieldType :: field_rest) (c ++ e)) by (apply der_part; [exact N1|]; eapply field_end_der; exact E).
  destruct (fst x) as [lb|].
  - apply der_opt. cbn [app]. apply der_part; [|exact D]. rule_is r_fieldLabel.
    destruct lb; (eapply der_kw1; [exact L|cbn; tauto]).
  - cbn in L. subst a. now apply der_opt_no.
Qed.
Lemma oneofField_part f w : field_is (None, f) w -> part r_oneofField w.
Proof.
  unfold field_is. cbn [spell fst snd]. intros (a & b & -> & L & c & d & -> & [N1 _] & e & f0 & -> & E & ->). rewrite app_nil_r. cbn in L. subst a.
  apply der_rule. change (rule r_oneofField) with (N r_fieldType :: field_rest). cbn [app]. apply der_part; [exact N1|]. eapply field_end_der; exact E.
Qed.
Lemma map_part k f w : map_is k f w -> part r_mapField w.
Proof.
  unfold map_is. cbn [spell]. intros (a & b & -> & K1 & a2 & b2 & -> & K2 & a3 & b3 & -> & [N3 _] & a4 & b4 & -> & K4 & a5 & b5 & -> & [N5 _] & a6 & b6 & -> & K6 & a7 & b7 & -> & E & ->).
  rewrite app_nil_r. apply der_rule. change (rule r_mapField) with ([T [MAP]; T [LT]; N r_keyType; T [COMMA]; N r_fieldType; T [GT]] ++ field_rest).
  cbn [app]. eapply der_kw; [exact K1|now left|]. eapply der_kw; [exact K2|now left|]. apply der_part; [exact N3|]. eapply der_kw; [exact K4|now left|].
  apply der_part; [exact N5|]. eapply der_kw; [exact K6|now left|]. eapply field_end_der; exact E.
Qed.
Lemma semi_part w : kw SEMI w -> part r_emptyStatement w.
Proof. intros K. rule_is r_emptyStatement. eapply der_kw1; [exact K|now left]. Qed.
(** a list between braces *)
Lemma things_der {A} (P : A -> list tok -> Prop) b m l w w' : (forall x w, P x w -> der b w) -> (forall w, kw SEMI w -> der b w) ->
  things P l w -> der m w' -> der (Star b :: m) (w ++ w').
Proof.
  intros H1 H2 Th M. induction Th as [|x l u v Px Th IH|l u v K Th IH]; [now apply der_end| |]; rewrite <- app_assoc; apply der_star; eauto.
Qed.
Lemma several_der {A} (P : A -> list tok -> Prop) b m l w w' : (forall x w, P x w -> der b w) ->
  several P l w -> der m w' -> der (Star b :: m) (w ++ w').
Proof. intros H1 Th M. induction Th as [|x l u v Px Th IH]; [now apply der_end|]. rewrite <- app_assoc. apply der_star; eauto. Qed.
Lemma oneof_part n l w : oneof_is n l w -> part r_oneof w.
Proof.
  unfold oneof_is. cbn [spell]. intros (a & b & -> & K1 & a2 & b2 & -> & [N2 _] & a3 & b3 & -> & K3 & a4 & b4 & -> & Th & a5 & b5 & -> & K5 & ->).
  rewrite app_nil_r. rule_is r_oneof. eapply der_kw; [exact K1|now left|]. apply der_part; [exact N2|]. eapply der_kw; [exact K3|now left|].
  eapply things_der; [| |exact Th|eapply der_kw1; [exact K5|now left]].
  - intros [n0 c0|f] w0 Pe; cbn [oneof_elem_is] in Pe.
    + pick_alt [N 4]. apply der_last. eapply option_part; exact Pe.
    + pick_alt [N 12]. apply der_last. eapply oneofField_part; exact Pe.
  - intros w0 K. pick_alt [N 37]. apply der_last. now apply semi_part.
Qed.
Lemma range_part x w : range_is x w -> part r_oneRange w.
Proof.
  unfold range_is. intros R. rule_is r_oneRange. destruct (snd x).
  - destruct R as [R _]. rewrite <- (app_nil_r w). apply der_part; [exact R|]. apply der_opt_no, der_nil.
  - cbn [spell] in R. destruct R as (a & b & -> & [N1 _] & a2 & b2 & -> & K2 & a3 & b3 & -> & K3 & ->). rewrite app_nil_r. apply der_part; [exact N1|].
    apply der_opt. cbn [app]. eapply der_kw; [exact K2|now left|]. pick_alt [T [31%Z]]. eapply der_kw1; [exact K3|now left].
  - cbn [spell] in R. destruct R as (a & b & -> & [N1 _] & a2 & b2 & -> & K2 & a3 & b3 & -> & [N3 _] & ->). rewrite app_nil_r. apply der_part; [exact N1|].
    apply der_opt. cbn [app]. eapply der_kw; [exact K2|now left|]. pick_alt [N 48]. now apply der_last.
Qed.
Lemma reserved_part rr w : reserved_is rr w -> part r_reserved w.
Proof.
  unfold reserved_is. cbn [spell]. intros (a & b & -> & K1 & a2 & b2 & -> & C & a3 & b3 & -> & K3 & ->). rewrite app_nil_r.
  rule_is r_reserved. eapply der_kw; [exact K1|now left|]. pick_alt [N 18]. apply der_part; [|eapply der_kw1; [exact K3|now left]].
  rule_is r_ranges. rewrite <- (app_nil_r a2). apply (commas_part range_is r_oneRange rr [] a2 []); auto using der_nil. intros x v. apply range_part.
Qed.
Lemma names_part w : reserved_names w -> part r_reserved w.
Proof.
  unfold reserved_names. cbn [spell]. intros (a & b & -> & K1 & a2 & b2 & -> & C & a3 & b3 & -> & K3 & ->). rewrite app_nil_r.
  rule_is r_reserved. eapply der_kw; [exact K1|now left|]. pick_alt [N 20]. apply der_part; [exact C|]. eapply der_kw1; [exact K3|now left].
Qed.
Lemma enum_elem_part e w : enum_elem_is e w -> part r_enumElement w.
Proof.
  intros H. rule_is r_enumElement. destruct e as [n c|n neg lit oo|rr|]; cbn [enum_elem_is] in H.
  - pick_alt [N 4]. apply der_last. eapply option_part; exact H.
  - pick_alt [N 25]. apply der_last. cbn [spell] in H.
    destruct H as (a & b & -> & [N1 _] & a2 & b2 & -> & K2 & a3 & b3 & -> & M & a4 & b4 & -> & [N4 _] & a5 & b5 & -> & B & a6 & b6 & -> & K6 & ->).
    rewrite app_nil_r. rule_is r_enumField. apply der_part; [exact N1|]. eapply der_kw; [exact K2|now left|].
    assert (D : der [N 48; Opt [N 26]; T [39%Z]] (a4 ++ a5 ++ a6)).
    { apply der_part; [exact N4|]. destruct oo as [|o oo].
      - cbn in B. subst a5. apply der_opt_no. eapply der_kw1; [exact K6|now left].
      - apply der_opt. cbn [app]. apply der_part; [|eapply der_kw1; [exact K6|now left]]. cbn [brackets] in B. cbn [spell] in B.
        destruct B as (c1 & d1 & -> & K3 & c2 & d2 & -> & C & c3 & d3 & -> & K4 & ->). rewrite app_nil_r. apply der_rule.
        change (der (T [LB] :: [N r_enumValueOption; Star [T [COMMA]; N r_enumValueOption]] ++ [T [RB]]) (c1 ++ c2 ++ c3)).
        eapply der_kw; [exact K3|now left|]. eapply commas_part; [|exact C|eapply der_kw1; [exact K4|now left]]. intros x v. apply enumValueOption_part. }
    destruct neg.
    + apply der_opt. cbn [app]. eapply der_kw; [exact M|now left|]. exact D.
    + subst a3. apply der_opt_no. exact D.
  - pick_alt [N 16]. apply der_last. eapply reserved_part; exact H.
  - destruct H as [H|H].
    + pick_alt [N 16]. apply der_last. now apply names_part.
    + pick_alt [N 37]. apply der_last. now apply semi_part.
Qed.
Lemma enum_part e w : enum_is e w -> part r_enumDef w.
Proof.
  unfold enum_is. cbn [spell]. intros (a & b & -> & K1 & a2 & b2 & -> & [N2 _] & a3 & b3 & -> & K3 & a4 & b4 & -> & Th & a5 & b5 & -> & K5 & ->).
  rewrite app_nil_r. rule_is r_enumDef. eapply der_kw; [exact K1|now left|]. apply der_part; [exact N2|]. apply der_last. rule_is r_enumBody.
  eapply der_kw; [exact K3|now left|]. eapply several_der; [|exact Th|eapply der_kw1; [exact K5|now left]]. intros x v H. apply der_last. eapply enum_elem_part; exact H.
Qed.
Lemma extend_part l w : extend_is l w -> part r_extendDef w.
Proof.
  unfold extend_is. cbn [spell]. intros (a & b & -> & K1 & a2 & b2 & -> & N2 & a3 & b3 & -> & K3 & a4 & b4 & -> & Th & a5 & b5 & -> & K5 & ->).
  rewrite app_nil_r. rule_is r_extendDef. eapply der_kw; [exact K1|now left|]. apply der_part; [exact N2|]. eapply der_kw; [exact K3|now left|].
  eapply things_der; [| |exact Th|eapply der_kw1; [exact K5|now left]].
  - intros x v H. pick_alt [N 7]. apply der_last. eapply field_part; exact H.
  - intros v H. pick_alt [N 37]. apply der_last. now apply semi_part.
Qed.
Lemma msg_part n a b c d e : kw MESSAGE a -> named r_messageName n b -> kw LC c -> der [Star [N r_messageElement]] d -> kw RC e ->
  part r_messageDef (a ++ b ++ c ++ d ++ e).
Proof.
  intros K1 [N2 _] K3 D K5. rule_is r_messageDef. eapply der_kw; [exact K1|now left|]. apply der_part; [exact N2|]. apply der_last.
  apply der_rule. change (der (T [LC] :: [Star [N r_messageElement]] ++ [T [RC]]) (c ++ d ++ e)). eapply der_kw; [exact K3|now left|].
  apply der_app; [exact D|]. eapply der_kw1; [exact K5|now left].
Qed.
Scheme elem_ind2 := Induction for elem_is Sort Prop
with elems_ind2 := Induction for elems_are Sort Prop.
Lemma elems_der l d : elems_are l d -> der [Star [N r_messageElement]] d.
Proof.
  revert l d. apply (elems_ind2 (fun e w _ => part r_messageElement w) (fun l w _ => der [Star [N r_messageElement]] w)).
  - intros lb f w H. rule_is r_messageElement. pick_alt [N 7]. apply der_last. eapply field_part; exact H.
  - intros k f w H. rule_is r_messageElement. pick_alt [N 13]. apply der_last. eapply map_part; exact H.
  - intros n l w H. rule_is r_messageElement. pick_alt [N 11]. apply der_last. eapply oneof_part; exact H.
  - intros e w H. rule_is r_messageElement. pick_alt [N 22]. apply der_last. eapply enum_part; exact H.
  - intros n l a b c d e K1 N2 K3 E D K5. rule_is r_messageElement. pick_alt [N 28]. apply der_last. eapply (msg_part n); eauto.
  - intros l w H. rule_is r_messageElement. pick_alt [N 31]. apply der_last. eapply extend_part; exact H.
  - intros n c w H. rule_is r_messageElement. pick_alt [N 4]. apply der_last. eapply option_part; exact H.
  - intros rr w H. rule_is r_messageElement. pick_alt [N 16]. apply der_last. eapply reserved_part; exact H.
  - intros w H. rule_is r_messageElement. pick_alt [N 16]. apply der_last. eapply names_part; exact H.
  - intros w H. rule_is r_messageElement. pick_alt [N 17]. apply der_last. exact H.
  - intros w H. rule_is r_messageElement. pick_alt [N 37]. apply der_last. now apply semi_part.
  - apply der_end, der_nil.
  - intros x l a b _ P _ D. apply der_star; [now apply der_last|exact D].
Qed.
Lemma rpc_part r w : rpc_is r w -> part r_rpc w.
Proof.
  unfold rpc_is. cbn [spell].
  intros (a1 & b1 & -> & K1 & a2 & b2 & -> & [N2 _] & a3 & b3 & -> & K3 & a4 & b4 & -> & S4 & a5 & b5 & -> & [[N5 _] _] & a6 & b6 & -> & K6 &
    a7 & b7 & -> & K7 & a8 & b8 & -> & K8 & a9 & b9 & -> & S9 & a10 & b10 & -> & [[N10 _] _] & a11 & b11 & -> & K11 & a12 & b12 & -> & R & ->).
  rewrite app_nil_r. rule_is r_rpc. eapply der_kw; [exact K1|now left|]. apply der_part; [exact N2|]. eapply der_kw; [exact K3|now left|].
  assert (St : forall s a l b, stream_is s a -> der l b -> der (Opt [T [37%Z]] :: l) (a ++ b)).
  { intros [p|] a l b H D; cbn [stream_is] in H.
    - destruct H as (x & -> & K & _). apply der_opt. cbn [app]. change (x :: b) with ([x] ++ b). eapply der_kw; [exists x; split; [reflexivity|exact K]|now left|exact D].
    - subst a. now apply der_opt_no. }
  apply (St _ _ _ _ S4). apply der_part; [exact N5|]. eapply der_kw; [exact K6|now left|]. eapply der_kw; [exact K7|now left|]. eapply der_kw; [exact K8|now left|].
  apply (St _ _ _ _ S9). apply der_part; [exact N10|]. eapply der_kw; [exact K11|now left|].
  destruct R as [R|[_ R]].
  - cbn [spell] in R. destruct R as (c1 & d1 & -> & Q1 & c2 & d2 & -> & Th & c3 & d3 & -> & Q3 & ->). rewrite app_nil_r.
    eapply der_alt; [left; reflexivity|]. cbn [app]. eapply der_kw; [exact Q1|now left|].
    eapply things_der; [| |exact Th|eapply der_kw1; [exact Q3|now left]].
    + intros x v H. pick_alt [N 4]. apply der_last. eapply option_part; exact H.
    + intros v H. pick_alt [N 37]. apply der_last. now apply semi_part.
  - eapply der_alt; [right; left; reflexivity|]. cbn [app]. eapply der_kw1; [exact R|now left].
Qed.
Lemma service_part n l w : service_is n l w -> part r_serviceDef w.
Proof.
  unfold service_is. cbn [spell]. intros (a & b & -> & K1 & a2 & b2 & -> & [N2 _] & a3 & b3 & -> & K3 & a4 & b4 & -> & Th & a5 & b5 & -> & K5 & ->).
  rewrite app_nil_r. rule_is r_serviceDef. eapply der_kw; [exact K1|now left|]. apply der_part; [exact N2|]. eapply der_kw; [exact K3|now left|].
  eapply several_der; [|exact Th|eapply der_kw1; [exact K5|now left]]. intros [n0 c0|r|] v H; apply der_last; rule_is r_serviceElement; cbn [service_elem_is] in H.
  - pick_alt [N 4]. apply der_last. eapply option_part; exact H.
  - pick_alt [N 34]. apply der_last. eapply rpc_part; exact H.
  - pick_alt [N 37]. apply der_last. now apply semi_part.
Qed.
Lemma top_der d w : top_is d w -> der [Alt [[N r_importStatement]; [N r_packageStatement]; [N r_optionStatement]; [N r_topLevelDef]; [N r_emptyStatement]]] w.
Proof.
  assert (Tp : forall q, In [N q] [[N r_messageDef]; [N r_enumDef]; [N r_extendDef]; [N r_serviceDef]] -> part q w ->
    der [Alt [[N r_importStatement]; [N r_packageStatement]; [N r_optionStatement]; [N r_topLevelDef]; [N r_emptyStatement]]] w).
  { intros q I P. pick_alt [N r_topLevelDef]. apply der_last. rule_is r_topLevelDef. eapply der_alt; [exact I|]. now apply der_last. }
  intros H. destruct d as [pub lit|n|n c|n l|e|l|n l|]; cbn [top_is] in H.
  - pick_alt [N r_importStatement]. apply der_last. cbn [spell] in H. destruct H as (a & b & -> & K1 & a2 & b2 & -> & K2 & a3 & b3 & -> & [N3 _] & a4 & b4 & -> & K4 & ->).
    rewrite app_nil_r. rule_is r_importStatement. eapply der_kw; [exact K1|now left|].
    assert (D : der [N 49; T [39%Z]] (a3 ++ a4)) by (apply der_part; [exact N3|]; eapply der_kw1; [exact K4|now left]).
    destruct pub.
    + apply der_opt. cbn [app]. eapply der_kw; [exact K2|cbn; tauto|exact D].
    + destruct K2 as [->|K2]; [now apply der_opt_no|]. apply der_opt. cbn [app]. eapply der_kw; [exact K2|cbn; tauto|exact D].
  - pick_alt [N r_packageStatement]. apply der_last. cbn [spell] in H. destruct H as (a & b & -> & K1 & a2 & b2 & -> & [N2 _] & a3 & b3 & -> & K3 & ->).
    rewrite app_nil_r. rule_is r_packageStatement. eapply der_kw; [exact K1|now left|]. apply der_part; [exact N2|]. eapply der_kw1; [exact K3|now left].
  - pick_alt [N r_optionStatement]. apply der_last. eapply option_part; exact H.
  - apply (Tp r_messageDef); [cbn; tauto|]. cbn [spell] in H.
    destruct H as (a & b & -> & K1 & a2 & b2 & -> & N2 & a3 & b3 & -> & K3 & a4 & b4 & -> & E & a5 & b5 & -> & K5 & ->). rewrite app_nil_r.
    eapply (msg_part n); eauto. eapply elems_der; exact E.
  - apply (Tp r_enumDef); [cbn; tauto|]. eapply enum_part; exact H.
  - apply (Tp r_extendDef); [cbn; tauto|]. eapply extend_part; exact H.
  - apply (Tp r_serviceDef); [cbn; tauto|]. eapply service_part; exact H.
  - pick_alt [N r_emptyStatement]. apply der_last. now apply semi_part.
Qed.
Lemma spelled_sentence f w : file_is f w -> sentence w.
Proof.
  unfold file_is. cbn [spell]. intros (a & b & -> & E & a2 & b2 & -> & S & a3 & b3 & -> & K & ->). rewrite app_nil_r.
  assert (P : part r_proto (a ++ a2 ++ a3)).
  { rule_is r_proto. assert (D : der [Star [Alt [[N r_importStatement]; [N r_packageStatement]; [N r_optionStatement]; [N r_topLevelDef]; [N r_emptyStatement]]]; T [EOF]] (a2 ++ a3)).
    { eapply several_der; [|exact S|eapply der_kw1; [exact K|now left]]. exact top_der. }
    destruct (sfl_edition f) as [lit|]; cbn [edition_is] in E.
    - apply der_opt. cbn [app]. apply der_part; [|exact D]. cbn [spell] in E. destruct E as (c1 & d1 & -> & Q1 & c2 & d2 & -> & Q2 & c3 & d3 & -> & [Q3 _] & c4 & d4 & -> & Q4 & ->).
      rewrite app_nil_r. rule_is r_edition. assert (D' : der [T [40%Z]; N 49; T [39%Z]] (c2 ++ c3 ++ c4)).
      { eapply der_kw; [exact Q2|now left|]. apply der_part; [exact Q3|]. eapply der_kw1; [exact Q4|now left]. }
      destruct Q1 as [Q1|Q1]; (eapply der_kw; [exact Q1|cbn; tauto|exact D']).
    - subst a. now apply der_opt_no. }
  destruct P as [g D]. apply i_N in D. destruct D as (w1 & f1 & w2 & f2 & Ew & -> & D1 & D2). apply i_nil in D2 as [-> ->]. rewrite app_nil_r in Ew.
  exists (Node r_proto f1). unfold file_tree. rewrite Ew, <- (app_nil_r w1). constructor; [exact D1|constructor].
Qed.

(* ---------- the tokens of any text ---------- *)
Definition good_item (i : item) : Prop :=
  match i with ITok k ch t => first_kind k t /\ t <> [] /\ ch = channel_of k /\ k <> EOF | IErr _ => True end.
Lemma kind_not_eof k t : of_kind k t -> k <> EOF.
Proof. intros (r & I & _). pose proof kinds_not_eof as K. rewrite Forall_forall in K. exact (K _ I). Qed.
Lemma tokens_good fuel : forall inp hit items, is_text inp -> Atn.tokens fuel lexer_atn inp hit = Some items ->
  exists l, items = l ++ [eof_token] /\ Forall good_item l.
Proof.
  induction fuel as [|fuel IH]; intros inp hit items Ht E; [discriminate|]. cbn [Atn.tokens] in E.
  destruct hit; [injection E as <-; now exists []|].
  pose proof (match_token_spec inp Ht) as M. destruct (match_token lexer_atn inp) as [[len k ch| |n]|]; cbn [Atn.bind] in E; [| | |contradiction].
  - destruct M as (t & rest & -> & -> & F & ->).
    rewrite skipn_app, skipn_all, Nat.sub_diag, skipn_O in E. cbn [app] in E.
    rewrite firstn_app, firstn_all, Nat.sub_diag, firstn_O, app_nil_r in E.
    destruct (Atn.tokens fuel lexer_atn rest _) as [r|] eqn:Er; [|discriminate]. cbn [Atn.bind] in E. injection E as <-.
    apply IH in Er; [|apply Forall_app in Ht; apply Ht]. destruct Er as (l & -> & G). exists (ITok k (channel_of k) t :: l). split; [reflexivity|].
    constructor; [|exact G]. destruct F as (Nt & F & _). cbn. repeat split; auto; try apply F. destruct F as [F _]. now apply (kind_not_eof k t).
  - injection E as <-. now exists [].
  - destruct (Atn.tokens fuel lexer_atn (skipn n inp) _) as [r|] eqn:Er; [|discriminate]. cbn [Atn.bind] in E. injection E as <-.
    apply IH in Er.
    + destruct Er as (l & -> & G). exists (IErr (firstn n inp) :: l). split; [reflexivity|]. now constructor.
    + rewrite <- (firstn_skipn n inp) in Ht. apply Forall_app in Ht. apply Ht.
Qed.
Lemma parser_tokens_after l : forall i, Forall (fun x => i <= t_start x) (parser_tokens i l).
Proof.
  induction l as [|[k ch t|t] l IH]; intros i; cbn [parser_tokens]; [constructor| |].
  - apply Forall_app. split; [destruct (ch =? 0)%Z; repeat constructor|].
    eapply Forall_impl; [|exact (IH (i + List.length t))]. cbn. intros a. lia.
  - eapply Forall_impl; [|exact (IH (i + List.length t))]. cbn. intros a. lia.
Qed.
Lemma parser_tokens_ok l : forall i, Forall good_item l -> let w := parser_tokens i (l ++ [eof_token]) in
  eof_last w /\ lexed w /\ with_text w /\ in_order w.
Proof.
  cbv zeta. induction l as [|[k ch t|t] l IH]; intros i F; cbn [app parser_tokens].
  - repeat split; [|repeat constructor..]. intros a x b E _. cbn in E. destruct a as [|? [|? ?]]; cbn in E; congruence.
  - apply Forall_cons_iff in F as [(Fk & Nt & -> & NE) F]. destruct (IH (i + List.length t) F) as (A & B & C & D).
    destruct (channel_of k =? 0)%Z; cbn [app]; [|auto]. repeat split.
    + intros a y b E Ey. destruct a as [|z a]; cbn in E.
      * injection E as <- <-. cbn in Ey. congruence.
      * injection E as _ E. now apply (A a y b).
    + constructor; auto.
    + constructor; auto.
    + constructor; [exact D|]. eapply Forall_impl; [|exact (parser_tokens_after (l ++ [eof_token]) (i + List.length t))]. cbn. intros a.
      assert (0 < List.length t) by (destruct t; [congruence|cbn; lia]). lia.
  - apply Forall_cons_iff in F as [_ F]. apply (IH _ F).
Qed.
Local Opaque lex.
Lemma file_tokens data : exists items, lex_file data = Some items /\ let w := parser_tokens 0 items in
  eof_last w /\ lexed w /\ with_text w /\ in_order w.
Proof.
  assert (Ht : is_text (ReadRunes data)) by (eapply decoded_text, ReadRunes_decoded).
  destruct (lex_spec _ Ht) as (items & E & _). exists (items ++ [eof_token]). unfold lex_file. rewrite lex_lexer. split; [exact E|].
  destruct (tokens_good _ _ _ _ Ht E) as (l & El & G). rewrite El. now apply parser_tokens_ok.
Qed.
