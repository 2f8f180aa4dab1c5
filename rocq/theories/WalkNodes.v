(** Proofs for C81, continued: one lemma for each rule at which a listener is called. *)
From Coq Require Import List Arith Bool ZArith Lia Strings.String Init.Byte.
From Verif Require Import Base GoStr GenField Verify StrLit Listen Atn LexSpec LexFile ParserNames Parser Walk ParserSpec SpellSpec.
From Verif Require Import Props_Lex ParserProofs WalkProofs IdentProofs.
Import ListNotations StringSyntax.
Open Scope nat_scope.
Local Opaque rule GetText get_text.

Ltac unrule D :=
  match type of D with derives (rule ?r) _ _ => let e := eval vm_compute in (rule r) in change (rule r) with e in D end.
Ltac inv D :=
  match type of D with
  | derives [] _ _ => apply i_nil in D; destruct D as [-> ->]
  | derives (T _ :: _) _ _ => let x := fresh "x" in let w := fresh "w" in let f := fresh "f" in let K := fresh "K" in
      apply i_T in D; destruct D as (x & w & f & -> & -> & K & D)
  | derives (N _ :: _) _ _ => let v := fresh "v" in let g := fresh "g" in let w := fresh "w" in let f := fresh "f" in let A := fresh "A" in
      apply i_N in D; destruct D as (v & g & w & f & -> & -> & A & D)
  | derives (Star _ :: _) _ _ => let ps := fresh "ps" in let w := fresh "w" in let f := fresh "f" in let P := fresh "P" in
      apply i_star in D; destruct D as (ps & w & f & P & -> & -> & D)
  | derives (Opt _ :: _) _ _ => apply i_opt in D; destruct D as [D|D]; cbn [app] in D
  | derives (Alt _ :: _) _ _ => let b := fresh "b" in let I := fresh "I" in
      apply i_alt in D; destruct D as (b & I & D)
  end.
Ltac kind K := destruct K as [K|[]]; symmetry in K.
Lemma kw_intro k x : t_kind x = k -> kw k [x].
Proof. exists x. auto. Qed.
Lemma spell_cons (p : list tok -> Prop) r a b : p a -> spell r b -> spell (p :: r) (a ++ b).
Proof. intros A B. exists a, b. auto. Qed.
Lemma spell_kw k r x b : t_kind x = k -> spell r b -> spell (kw k :: r) (x :: b).
Proof. intros A B. exists [x], b. repeat split; auto. now apply kw_intro. Qed.
Lemma spell_none (p : list tok -> Prop) r b : p [] -> spell r b -> spell (p :: r) b.
Proof. intros A B. exists [], b. auto. Qed.
Lemma spell_last (p : list tok -> Prop) a : p a -> spell [p] a.
Proof. intros A. exists a, []. rewrite app_nil_r. repeat split; auto. Qed.
Lemma spell_nil : spell [] [].
Proof. reflexivity. Qed.
#[local] Hint Resolve spell_nil kw_intro rule_part rule_named : core.

(* ---------- lists ---------- *)
Lemma commas_of {A} q (P : A -> list tok -> Prop) (g : tree -> option A) w f :
  (forall w f, derives (rule q) w f -> exists x, P x w /\ g (Node q f) = Some x) ->
  derives [N q; Star [T [COMMA]; N q]] w f ->
  exists x l, commas P (x :: l) w /\ all g (contexts q f) = Some (x :: l).
Proof.
  intros H D. inv D. inv D. inv D.
  unfold pieces in P0. revert v g0 A0. rewrite !app_nil_r. induction P0 as [|[wp fp] ps Dp P0 IH]; intros v g0 A0; destruct (H _ _ A0) as (x & Px & Gx).
  - exists x, []. cbn [map concat app commas]. rewrite app_nil_r. split; [exact Px|].
    unfold contexts. cbn [filter]. rewrite Nat.eqb_refl. cbn [all]. now rewrite Gx.
  - cbn [fst snd] in Dp. inv Dp. inv Dp. inv Dp. destruct (IH _ _ A1) as (y & l & C & E). exists x, (y :: l). split.
    + cbn [map concat fst app]. rewrite app_nil_r.
      change (spell [P x; kw COMMA; commas P (y :: l)] (v ++ x0 :: v0 ++ concat (map fst ps))).
      kind K. exists v, (x0 :: v0 ++ concat (map fst ps)). split; [reflexivity|]. split; [exact Px|].
      exists [x0], (v0 ++ concat (map fst ps)). split; [reflexivity|]. split; [auto|].
      exists (v0 ++ concat (map fst ps)), []. rewrite app_nil_r. repeat split. exact C.
    + unfold contexts in *. cbn [map concat snd app filter] in *. rewrite Nat.eqb_refl in *. cbn [all] in *. rewrite Gx.
      now rewrite E.
Qed.
Lemma several_of {A} (P : A -> list tok -> Prop) (ev : A -> list event) r ps :
  Forall (fun p => exists x, P x (fst p) /\ evs r (snd p) = Some (ev x)) ps ->
  exists l, several P l (concat (map fst ps)) /\ evs r (concat (map snd ps)) = Some (flat_map ev l).
Proof.
  induction 1 as [|[w f] ps (x & Px & Ex) F (l & S & E)]; [exists []; split; constructor|].
  exists (x :: l). cbn [map concat fst snd flat_map] in *. split; [now constructor|]. rewrite evs_app, Ex, E. reflexivity.
Qed.
Lemma things_of {A} (P : A -> list tok -> Prop) (ev : A -> list event) r ps :
  Forall (fun p => (exists x, P x (fst p) /\ evs r (snd p) = Some (ev x)) \/ (kw SEMI (fst p) /\ evs r (snd p) = Some [])) ps ->
  exists l, things P l (concat (map fst ps)) /\ evs r (concat (map snd ps)) = Some (flat_map ev l).
Proof.
  induction 1 as [|[w f] ps [(x & Px & Ex)|[Sx Ex]] F (l & S & E)]; [exists []; split; constructor| |]; cbn [map concat fst snd] in *.
  - exists (x :: l). split; [now constructor|]. rewrite evs_app, Ex, E. reflexivity.
  - exists l. split; [now constructor|]. rewrite evs_app, Ex, E. reflexivity.
Qed.

(* ---------- options ---------- *)
Lemma assign_of q w f : rule q = [N r_optionName; T [EQ]; N r_constant] -> derives (rule q) w f ->
  exists o, assignment o w /\ option_of f = Some o.
Proof.
  intros E D. rewrite E in D. inv D. inv D. inv D. inv D. kind K.
  exists (get_text (Node r_optionName g), get_text (Node r_constant g0)). split.
  - unfold assignment. cbn [fst snd]. apply spell_cons; [auto|]. apply spell_kw; [auto|]. apply spell_cons; auto.
  - reflexivity.
Qed.
Lemma option_of_rule p P w f : derives (rule r_optionStatement) w f -> parent p = Some P ->
  exists n c, option_statement (n, c) w /\ events p (Node r_optionStatement f) = Some [ExitOptionStatement P n c].
Proof.
  intros D Pp. rewrite (quiet_node _ _ _ _ D) by reflexivity. unrule D. inv D. inv D. inv D. inv D. inv D. inv D.
  kind K. kind K0. kind K1.
  exists (get_text (Node r_optionName g)), (get_text (Node r_constant g0)). split.
  - unfold option_statement. apply spell_kw; [auto|].
    replace (v ++ [x0] ++ v0 ++ [x1] ++ []) with ((v ++ x0 :: v0) ++ [x1]) by (rewrite <- app_assoc; reflexivity).
    apply spell_cons; [|apply spell_kw; auto].
    unfold assignment. cbn [fst snd]. apply spell_cons; [auto|]. apply spell_kw; [auto|]. apply spell_last; auto.
  - unfold enter, exit. cbn. rewrite Pp. reflexivity.
Qed.
Lemma brackets_of q q' w f a b : rule q = [N q'; Star [T [COMMA]; N q']] ->
  rule q' = [N r_optionName; T [EQ]; N r_constant] -> derives (rule q) w f ->
  t_kind a = LB -> t_kind b = RB ->
  exists oo, brackets oo ([a] ++ w ++ [b]) /\ options_of q' (Some (Node q f)) = Some oo.
Proof.
  intros E E' D Ka Kb. rewrite E in D.
  destruct (commas_of q' assignment (fun y => option_of (children y)) w f (fun w f => assign_of q' w f E') D) as (x & l & C & G).
  exists (x :: l). split; [|exact G]. cbn [brackets app]. apply spell_kw; [auto|]. apply spell_cons; [exact C|]. apply spell_kw; auto.
Qed.

(* ---------- fields ---------- *)
Lemma lexed_app a b : lexed (a ++ b) -> lexed a /\ lexed b.
Proof. apply Forall_app. Qed.
Lemma lexed_label x : lexed [x] ->
  (t_kind x = OPTIONAL -> t_text x = str "optional") /\ (t_kind x = REQUIRED -> t_text x = str "required") /\
  (t_kind x = REPEATED -> t_text x = str "repeated").
Proof.
  intros L. apply Forall_inv in L. repeat split; intros Kx;
    (destruct L as [E|[(r & I & M) _]]; [rewrite Kx in E; discriminate|]); rewrite Kx in I.
  - kind_re I. change (matches (lit_codes (str "optional")) (t_text x)) in M. now apply lit_inv in M.
  - kind_re I. change (matches (lit_codes (str "required")) (t_text x)) in M. now apply lit_inv in M.
  - kind_re I. change (matches (lit_codes (str "repeated")) (t_text x)) in M. now apply lit_inv in M.
Qed.
Lemma label_of_rule w f : derives (rule r_fieldLabel) w f -> lexed w ->
  exists lb, label_is (Some lb) w /\ forall l, label_of (Node r_fieldLabel f :: l) = Some lb.
Proof.
  intros D L. unrule D. inv D. inv D. cbn [app] in *.
  assert (G : forall l, text_at r_fieldLabel 0 (Node r_fieldLabel [Leaf x] :: l) = Some (GetText (t_text x))).
  { intros l. cbn. with_strategy transparent [get_text] cbn [get_text flat_map]. now rewrite app_nil_r. }
  destruct (lexed_label x L) as (A1 & A2 & A3).
  destruct K as [K|[K|[K|[]]]]; symmetry in K.
  - exists LOptional. split; [now apply kw_intro|]. intros l. unfold label_of. rewrite G, (A1 K). reflexivity.
  - exists LRequired. split; [now apply kw_intro|]. intros l. unfold label_of. rewrite G, (A2 K). reflexivity.
  - exists LRepeated. split; [now apply kw_intro|]. intros l. unfold label_of. rewrite G, (A3 K). reflexivity.
Qed.

Definition field_rest : list sym := [N r_fieldName; T [EQ]; N r_fieldNumber; options_in_brackets; T [SEMI]].
Lemma end_of w f : derives field_rest w f -> exists n num oo,
  (forall ty, field_end (mkSF ty n num oo) w) /\
  text_at r_fieldName 0 f = Some n /\ text_at r_fieldNumber 0 f = Some num /\
  options_of r_fieldOption (context r_fieldOptions 0 f) = Some oo /\ contexts r_fieldLabel f = [].
Proof.
  unfold field_rest, options_in_brackets, t. intros D. pose proof (no_contexts r_fieldLabel _ _ _ D eq_refl) as NL.
  inv D. inv D. inv D. kind K. unrule A0. inv A0. inv A0. rename g1 into gn, v1 into vn, A1 into An.
  assert (E : get_text (Node r_fieldNumber [Node 48 gn]) = get_text (Node r_intLit gn)).
  { with_strategy transparent [get_text] cbn [get_text flat_map]. now rewrite app_nil_r. }
  inv D.
  - inv D. inv D. kind K0. exists (get_text (Node r_fieldName g)), (get_text (Node r_intLit gn)), []. split; [|split; [|split; [|split]]].
    + intros ty. unfold field_end. cbn [sf_name sf_num sf_options]. rewrite app_nil_r. apply spell_cons; [auto|]. apply spell_kw; [auto|].
      apply spell_cons; [auto|]. apply spell_none; [reflexivity|]. apply spell_kw; auto.
    + reflexivity.
    + cbn. now rewrite <- E.
    + reflexivity.
    + exact NL.
  - inv D. inv D. inv D. inv D. inv D. kind K0. kind K1. kind K2.
    destruct (brackets_of r_fieldOptions r_fieldOption _ _ x0 x1 eq_refl eq_refl A0 K0 K1) as (oo & B & O).
    exists (get_text (Node r_fieldName g)), (get_text (Node r_intLit gn)), oo. split; [|split; [|split; [|split]]].
    + intros ty. unfold field_end. cbn [sf_name sf_num sf_options]. rewrite app_nil_r. apply spell_cons; [auto|]. apply spell_kw; [auto|].
      apply spell_cons; [auto|]. replace ([x0] ++ v0 ++ [x1] ++ [x2] ++ []) with (([x0] ++ v0 ++ [x1]) ++ [x2]) by (rewrite <- !app_assoc; reflexivity).
      apply spell_cons; [exact B|]. apply spell_kw; auto.
    + reflexivity.
    + cbn. now rewrite <- E.
    + exact O.
    + exact NL.
Qed.
Lemma field_ok ty g f n num oo : text_at r_fieldName 0 f = Some n -> text_at r_fieldNumber 0 f = Some num ->
  options_of r_fieldOption (context r_fieldOptions 0 f) = Some oo -> get_text (Node r_fieldType g) = ty ->
  field_of (Node r_fieldType g :: f) = Some (mkSF ty n num oo).
Proof.
  intros A B C <-. unfold field_of.
  change (text_at r_fieldName 0 (Node r_fieldType g :: f)) with (text_at r_fieldName 0 f).
  change (text_at r_fieldNumber 0 (Node r_fieldType g :: f)) with (text_at r_fieldNumber 0 f).
  change (context r_fieldOptions 0 (Node r_fieldType g :: f)) with (context r_fieldOptions 0 f).
  now rewrite A, B, C.
Qed.
Lemma field_of_rule p P w f : derives (rule r_field) w f -> lexed w -> parent p = Some P ->
  exists lb sf, field_is (lb, sf) w /\ events p (Node r_field f) = Some [ExitField P lb sf].
Proof.
  intros D L Pp. rewrite (quiet_node _ _ _ _ D) by reflexivity.
  change (rule r_field) with ([Opt [N r_fieldLabel]; N r_fieldType] ++ field_rest) in D.
  cbn [app] in D. inv D.
  - inv D. destruct (end_of _ _ D) as (n & num & oo & S & A1 & A2 & A3 & A4).
    exists None, (mkSF (get_text (Node r_fieldType g)) n num oo). split.
    + unfold field_is. cbn [fst snd sf_type]. apply spell_none; [reflexivity|]. apply spell_cons; [auto|]. apply spell_last; auto.
    + unfold enter, exit. cbn [Nat.eqb r_field r_messageDef r_enumDef r_oneof r_serviceDef r_rpc r_enumField]. rewrite cat_nil_l.
      unfold bind. rewrite Pp, (field_ok _ _ _ _ _ _ A1 A2 A3 eq_refl).
      assert (E : label_of (Node r_fieldType g :: f0) = None).
      { unfold label_of, text_at, context. change (contexts r_fieldLabel (Node r_fieldType g :: f0)) with (contexts r_fieldLabel f0). now rewrite A4. }
      now rewrite E.
  - inv D. inv D. destruct (end_of _ _ D) as (n & num & oo & S & A1 & A2 & A3 & A4).
    apply lexed_app in L as [Lv L]. destruct (label_of_rule _ _ A Lv) as (lb & Lw & Lf).
    exists (Some lb), (mkSF (get_text (Node r_fieldType g0)) n num oo). split.
    + unfold field_is. cbn [fst snd sf_type]. apply spell_cons; [exact Lw|]. apply spell_cons; [auto|]. apply spell_last; auto.
    + unfold enter, exit. cbn [Nat.eqb r_field r_messageDef r_enumDef r_oneof r_serviceDef r_rpc r_enumField]. rewrite cat_nil_l.
      unfold bind. rewrite Pp. pose proof (field_ok _ g0 _ _ _ _ A1 A2 A3 eq_refl) as E.
      match goal with |- context [field_of (_ :: ?z)] => change (field_of (Node r_fieldLabel g :: z)) with (field_of z) end.
      now rewrite E, Lf.
Qed.
Lemma oneofField_of_rule p w f : derives (rule r_oneofField) w f ->
  exists sf, field_is (None, sf) w /\ events p (Node r_oneofField f) = Some [ExitOneofField sf].
Proof.
  intros D. rewrite (quiet_node _ _ _ _ D) by reflexivity.
  change (rule r_oneofField) with (N r_fieldType :: field_rest) in D. inv D.
  destruct (end_of _ _ D) as (n & num & oo & S & A1 & A2 & A3 & A4).
  exists (mkSF (get_text (Node r_fieldType g)) n num oo). split.
  - unfold field_is. cbn [fst snd sf_type]. apply spell_none; [reflexivity|]. apply spell_cons; [auto|]. apply spell_last; auto.
  - unfold enter, exit. cbn [Nat.eqb r_field r_oneofField r_messageDef r_enumDef r_oneof r_serviceDef r_rpc r_enumField]. rewrite cat_nil_l.
    unfold bind. now rewrite (field_ok _ _ _ _ _ _ A1 A2 A3 eq_refl).
Qed.
Lemma mapField_of_rule p w f : derives (rule r_mapField) w f ->
  exists k sf, map_is k sf w /\ events p (Node r_mapField f) = Some [ExitMapField k sf].
Proof.
  intros D. rewrite (quiet_node _ _ _ _ D) by reflexivity.
  change (rule r_mapField) with ([T [MAP]; T [LT]; N r_keyType; T [COMMA]; N r_fieldType; T [GT]] ++ field_rest) in D.
  cbn [app] in D. inv D. inv D. inv D. inv D. inv D. inv D. kind K. kind K0. kind K1. kind K2.
  destruct (end_of _ _ D) as (n & num & oo & S & A1 & A2 & A3 & A4).
  exists (get_text (Node r_keyType g)), (mkSF (get_text (Node r_fieldType g0)) n num oo). split.
  - unfold map_is. cbn [sf_type app]. apply spell_kw; [auto|]. apply spell_kw; [auto|]. apply spell_cons; [auto|].
    apply spell_kw; [auto|]. apply spell_cons; [auto|]. apply spell_kw; [auto|]. apply spell_last; auto.
  - unfold enter, exit. cbn [Nat.eqb r_field r_oneofField r_mapField r_messageDef r_enumDef r_oneof r_serviceDef r_rpc r_enumField].
    rewrite cat_nil_l. unfold bind.
    match goal with |- context [text_at r_keyType 0 ?z] => change (text_at r_keyType 0 z) with (Some (get_text (Node r_keyType g))) end.
    pose proof (field_ok _ g0 _ _ _ _ A1 A2 A3 eq_refl) as E.
    match goal with |- context [field_of (?a :: ?b :: ?c :: ?d :: ?e :: ?h :: ?z)] =>
      change (field_of (a :: b :: c :: d :: e :: h :: z)) with (field_of (e :: z)) end.
    now rewrite E.
Qed.
