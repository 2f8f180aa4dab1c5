(** Proofs about GenNames.v. *)
From Coq Require Import Strings.String Init.Byte Lia ZifyBool ZifyNat ZifyN.
From Verif Require Import Base GoStr StrFacts GenField GenSpec GenNames NameSpec.
Import StringSyntax.
Open Scope N_scope.

Lemma b2n_lt : forall c, b2n c < 256.
Proof. intro c. destruct c; vm_compute; reflexivity. Qed.

Lemma upper_upper : forall c, is_lower c = true -> is_upper (to_upper c) = true.
Proof. intros c. destruct c; vm_compute; congruence. Qed.
Lemma lower_not_digit : forall c, is_lower c = true -> is_digit c = false.
Proof. intros c. destruct c; vm_compute; congruence. Qed.
Lemma upper_not_lower : forall c, is_upper c = true -> is_lower c = false.
Proof. intros c. destruct c; vm_compute; congruence. Qed.
Lemma upper_not_digit : forall c, is_upper c = true -> is_digit c = false.
Proof. intros c. destruct c; vm_compute; congruence. Qed.
Lemma lower_not : forall c, is_lower c = true -> beqb c x2e = false /\ beqb c x5f = false.
Proof. intros c. destruct c; vm_compute; try congruence; auto. Qed.
Lemma upper_not : forall c, is_upper c = true -> beqb c x2e = false /\ beqb c x5f = false.
Proof. intros c. destruct c; vm_compute; try congruence; auto. Qed.
Lemma digit_not : forall c, is_digit c = true -> is_lower c = false /\ is_upper c = false /\ beqb c x2e = false /\ beqb c x5f = false.
Proof. intros c. destruct c; vm_compute; try congruence; auto. Qed.

(** The characters of a dotted name; [st]: a component starts here. *)
Fixpoint wf (st : bool) (s : bytes) : Prop :=
  match s with
  | [] => st = false
  | c :: r => if st then (letter c \/ c = x5f) /\ wf false r
              else (ident_char c /\ wf false r) \/ (c = x2e /\ wf true r)
  end.

Lemma wf_app : forall a b, Forall ident_char a -> wf false b -> wf false (a ++ b).
Proof. induction a; cbn; intros b Ha Hb; [exact Hb|]. inversion Ha; subst. left. auto. Qed.
Lemma wf_name : forall a b, proto_name a -> wf false b -> wf true (a ++ b).
Proof.
  intros a b (c & r & -> & Hc & Hr) Hb. cbn. split; [exact Hc|]. apply wf_app; assumption.
Qed.
Lemma wf_full : forall s, full_name s -> wf true s.
Proof.
  intros s (l & Hne & Hl & ->). induction Hl as [|a l Ha Hl IH]; [congruence|].
  destruct l as [|b l].
  - cbn [dotted]. rewrite <- (app_nil_r a). apply wf_name; [exact Ha|reflexivity].
  - change (dotted (a :: b :: l)) with (a ++ x2e :: dotted (b :: l)).
    apply wf_name; [exact Ha|]. cbn [wf]. right. split; [reflexivity|]. apply IH. discriminate.
Qed.

(** Normal form: lower case letters come only after letters ([w]), and no dots. *)
Definition is_letter (c : byte) : bool := is_lower c || is_upper c.
Fixpoint nf (w : bool) (s : bytes) : Prop :=
  match s with
  | [] => True
  | c :: r => (is_lower c = true -> w = true) /\ ident_char c /\ nf (is_letter c) r
  end.

Lemma nf_weaken : forall s w, nf false s -> nf w s.
Proof. destruct s as [|c s]; cbn; [trivial|]. intros w (H & Hi & Hn). split; [intro; discriminate (H H0)|auto]. Qed.

Lemma camel_word : forall s p, next_lower s = false -> camel p true s = camel p false s.
Proof. destruct s as [|c s]; cbn [next_lower camel]; intros p H; [reflexivity|]. rewrite H. reflexivity. Qed.

Lemma ident_upper : forall c, is_upper c = true -> ident_char c.
Proof. intros; right; right; left; assumption. Qed.

Lemma camel_nf : forall s st prev word,
  wf st s -> (word = true -> st = false) ->
  (st = true -> match prev with None => True | Some p => p = x2e end) ->
  nf word (camel prev word s).
Proof.
  induction s as [|c r IH]; intros st prev word Hwf Hw Hp; cbn [camel]; [exact Logic.I|].
  destruct (word && is_lower c) eqn:E1.
  { apply andb_prop in E1. destruct E1 as [-> El]. rewrite (Hw eq_refl) in Hwf.
    cbn [wf] in Hwf. cbn [nf]. split; [auto|]. split; [right; left; exact El|].
    destruct Hwf as [[Hi Hr]|[-> Hr]]; [|vm_compute in El; discriminate].
    unfold is_letter. rewrite El. cbn [orb]. eapply IH; [exact Hr|auto|discriminate]. }
  assert (Hcase : (c = x2e /\ st = false /\ wf true r) \/ (c <> x2e /\ ident_char c /\ wf false r)).
  { cbn [wf] in Hwf. destruct st.
    - right. destruct Hwf as [[Hl| ->] Hr].
      + split; [|split; [|exact Hr]].
        * intros ->. destruct Hl as [Hl|Hl]; vm_compute in Hl; discriminate.
        * destruct Hl as [Hl|Hl]; unfold ident_char; auto.
      + split; [discriminate|]. split; [unfold ident_char; auto|exact Hr].
    - destruct Hwf as [[Hi Hr]|[-> Hr]]; [right|left; auto].
      split; [|auto]. intros ->. destruct Hi as [Hi|[Hi|[Hi|Hi]]]; vm_compute in Hi; discriminate. }
  destruct Hcase as [(-> & -> & Hr)|(Hne & Hi & Hr)].
  - change (beqb x2e x2e) with true. cbn [andb].
    destruct (next_lower r) eqn:En.
    + apply nf_weaken. eapply IH; [exact Hr|discriminate|auto].
    + cbn [nf]. split; [vm_compute; discriminate|]. split; [right; right; right; reflexivity|].
      eapply IH; [exact Hr|discriminate|auto].
  - destruct (beqb_spec c x2e) as [->|_]; [congruence|]. cbn [andb].
    destruct (beqb_spec c x5f) as [->|Hu]; cbn [andb].
    + destruct (match prev with None => true | Some p => beqb p x2e end) eqn:Ep.
      * cbn [nf]. split; [vm_compute; discriminate|]. split; [apply ident_upper; reflexivity|].
        apply nf_weaken. eapply IH; [exact Hr|discriminate|discriminate].
      * destruct (next_lower r) eqn:En.
        -- apply nf_weaken. eapply IH; [exact Hr|discriminate|discriminate].
        -- change (is_digit x5f) with false. change (is_lower x5f) with false. cbv iota.
           cbn [nf]. split; [vm_compute; discriminate|]. split; [exact Hi|].
           change (is_letter x5f) with false. rewrite camel_word by exact En.
           eapply IH; [exact Hr|discriminate|discriminate].
    + destruct (is_digit c) eqn:Ed.
      * cbn [nf]. destruct (digit_not c Ed) as (A1 & A2 & _).
        split; [congruence|]. split; [exact Hi|]. unfold is_letter. rewrite A1, A2. cbn [orb].
        eapply IH; [exact Hr|discriminate|discriminate].
      * destruct (is_lower c) eqn:El.
        -- cbn [nf]. pose proof (upper_upper c El) as Hup.
           split; [rewrite (upper_not_lower _ Hup); discriminate|].
           split; [apply ident_upper; exact Hup|].
           unfold is_letter. rewrite Hup, Bool.orb_true_r.
           eapply IH; [exact Hr|auto|discriminate].
        -- cbn [nf]. split; [congruence|]. split; [exact Hi|].
           assert (Hup : is_upper c = true).
           { destruct Hi as [H|[H|[H|H]]]; [congruence|congruence|exact H|congruence]. }
           unfold is_letter. rewrite Hup, Bool.orb_true_r.
           eapply IH; [exact Hr|auto|discriminate].
Qed.

Lemma nf_fix : forall s p w, nf w s -> p <> x2e -> camel (Some p) w s = s.
Proof.
  induction s as [|c r IH]; intros p w Hn Hp; cbn [camel]; [reflexivity|].
  destruct Hn as (Hl & Hi & Hn).
  assert (Hc : c <> x2e).
  { intros ->. destruct Hi as [Hi|[Hi|[Hi|Hi]]]; vm_compute in Hi; discriminate. }
  destruct (is_lower c) eqn:El.
  - rewrite (Hl eq_refl). cbn [andb]. unfold is_letter in Hn. rewrite El in Hn. cbn [orb] in Hn.
    rewrite IH by assumption. reflexivity.
  - rewrite Bool.andb_false_r.
    destruct (beqb_spec c x2e) as [->|_]; [congruence|]. cbn [andb].
    destruct (beqb_spec c x5f) as [->|Hu]; cbn [andb].
    + destruct (beqb_spec p x2e) as [->|_]; [congruence|].
      change (is_letter x5f) with false in Hn.
      assert (En : next_lower r = false).
      { destruct r as [|d r]; [reflexivity|]. cbn [next_lower]. destruct Hn as (Hd & _).
        destruct (is_lower d); [discriminate (Hd eq_refl)|reflexivity]. }
      rewrite En. change (is_digit x5f) with false. cbv iota.
      rewrite camel_word by exact En. rewrite IH by assumption. reflexivity.
    + destruct (is_digit c) eqn:Ed.
      * destruct (digit_not c Ed) as (A1 & A2 & _). unfold is_letter in Hn. rewrite A1, A2 in Hn.
        rewrite IH by assumption. reflexivity.
      * unfold is_letter in Hn. destruct (is_upper c) eqn:Eu.
        -- rewrite Bool.orb_true_r in Hn. rewrite IH by assumption. reflexivity.
        -- destruct Hi as [H|[H|[H|H]]]; congruence.
Qed.

Lemma nf_ident : forall s w, nf w s -> Forall ident_char s.
Proof. induction s as [|c s IH]; cbn; intros w H; [constructor|]. destruct H as (_ & Hi & Hn). constructor; eauto. Qed.

Lemma camel_first : forall s, wf true s ->
  exists c r, GoCamelCase s = c :: r /\ is_upper c = true.
Proof.
  intros [|c r] Hwf; cbn [wf] in Hwf; [discriminate|]. unfold GoCamelCase. cbn [camel andb].
  destruct Hwf as [[[Hl|Hu]| ->] Hr].
  - destruct (lower_not c Hl) as [-> ->]. rewrite (lower_not_digit c Hl), Hl. cbn [andb].
    eexists _, _. split; [reflexivity|]. apply upper_upper, Hl.
  - destruct (upper_not c Hu) as [-> ->]. rewrite (upper_not_digit c Hu), (upper_not_lower c Hu). cbn [andb].
    eexists _, _. split; [reflexivity|]. exact Hu.
  - eexists _, _. split; reflexivity.
Qed.

Lemma camel_exported : forall s, full_name s -> exported (GoCamelCase s).
Proof.
  intros s Hs. apply wf_full in Hs. destruct (camel_first s Hs) as (c & r & E & Hu).
  assert (Hn : nf false (GoCamelCase s)).
  { eapply camel_nf; [exact Hs|discriminate|auto]. }
  rewrite E in *. exists c, r. split; [reflexivity|]. split; [exact Hu|].
  apply nf_ident in Hn. inversion Hn; assumption.
Qed.

Lemma camel_idem : forall s, full_name s -> GoCamelCase (GoCamelCase s) = GoCamelCase s.
Proof.
  intros s Hs. apply wf_full in Hs. destruct (camel_first s Hs) as (c & r & E & Hu).
  assert (Hn : nf false (GoCamelCase s)).
  { eapply camel_nf; [exact Hs|discriminate|auto]. }
  rewrite E in *. unfold GoCamelCase. cbn [camel andb].
  destruct (upper_not c Hu) as [-> ->]. rewrite (upper_not_digit c Hu), (upper_not_lower c Hu). cbn [andb].
  destruct Hn as (_ & _ & Hn). unfold is_letter in Hn. rewrite Hu, Bool.orb_true_r in Hn.
  rewrite nf_fix; [reflexivity|exact Hn|]. intros ->. vm_compute in Hu. discriminate.
Qed.

(** ** snake_case *)
Lemma camel_lowers : forall l p r, Forall (fun c => is_lower c = true) l ->
  camel p true (l ++ r) = l ++ camel (last (map Some l) p) true r.
Proof.
  induction l as [|c l IH]; intros p r H; cbn [app camel]; [reflexivity|].
  inversion H; subst. rewrite H2. cbn [andb]. rewrite IH by assumption. f_equal. f_equal. f_equal.
  cbn [map last]. destruct l; [reflexivity|]. cbn [map]. clear. revert b. induction l; intro b; [reflexivity|].
  cbn [map last] in *. apply IHl.
Qed.

Lemma camel_digits : forall d w p r, Forall (fun c => is_digit c = true) d ->
  d <> [] -> exists q, q <> x2e /\ camel p w (d ++ r) = d ++ camel (Some q) false r.
Proof.
  induction d as [|c d IH]; intros w p r H Hne; [congruence|].
  inversion H as [|? ? Hc Hd]; subst. cbn [app camel].
  destruct (digit_not c Hc) as (A1 & A2 & -> & ->). rewrite A1, Hc, Bool.andb_false_r. cbn [andb].
  destruct d as [|e d].
  - exists c. split; [|reflexivity]. intros ->. vm_compute in Hc. discriminate.
  - destruct (IH false (Some c) r Hd ltac:(discriminate)) as (q & Hq & E).
    exists q. split; [exact Hq|]. rewrite E. reflexivity.
Qed.

Lemma last_dflt : forall A (l : list A) x d d', last (x :: l) d = last (x :: l) d'.
Proof. induction l as [|y l IH]; intros; [reflexivity|]. cbn [last] in *. apply (IH y). Qed.

Lemma last_not_dot : forall l c, Forall (fun x => is_lower x = true) (c :: l) -> exists q, last (map Some l) (Some c) = Some q /\ q <> x2e.
Proof.
  induction l as [|d l IH]; intros c H.
  - exists c. split; [reflexivity|]. inversion H as [|? ? Hc _]. intros ->. vm_compute in Hc. discriminate.
  - inversion H as [|? ? Hc Hl]; subst. destruct (IH d Hl) as (q & E & Hq). exists q. split; [|exact Hq].
    rewrite <- E. destruct l as [|b l]; [reflexivity|]. change (last (map Some (b :: l)) (Some c) = last (map Some (b :: l)) (Some d)).
    cbn [map]. apply last_dflt.
Qed.

(** A word at the start of the name or after an underscore, followed by nothing or an
    underscore. *)
Lemma camel_one : forall s p r, word s -> p <> Some x2e ->
  r = [] \/ (exists t, r = x5f :: t) ->
  exists q, q <> x2e /\ camel p false (s ++ r) = capitalize s ++ camel (Some q) false r.
Proof.
  intros s p r (l & d & -> & Hne & Hl & Hd) Hp Hr.
  destruct l as [|c l]; [congruence|]. cbn [app camel capitalize andb].
  inversion Hl as [|? ? Hc Hl']; subst.
  destruct (lower_not c Hc) as [-> ->]. rewrite (lower_not_digit c Hc), Hc. cbn [andb].
  change (to_upper c) with (upper c).
  rewrite <- !app_assoc, camel_lowers by exact Hl'.
  destruct (last_not_dot l c Hl) as (q & -> & Hq).
  destruct d as [|e d].
  - exists q. split; [exact Hq|]. rewrite app_nil_r. cbn [app]. do 2 f_equal.
    apply camel_word. destruct Hr as [->|(t & ->)]; reflexivity.
  - destruct (camel_digits (e :: d) true (Some q) r Hd ltac:(discriminate)) as (q' & Hq' & E).
    exists q'. split; [exact Hq'|]. rewrite E. rewrite <- !app_assoc. reflexivity.
Qed.

Lemma next_word : forall s r, word s -> next_lower (s ++ r) = true.
Proof.
  intros s r (l & d & -> & Hne & Hl & _). destruct l as [|c l]; [congruence|]. cbn. inversion Hl; assumption.
Qed.

Lemma camel_snake_go : forall l p, Forall word l -> p <> Some x2e ->
  camel p false (snake l) = concat (map capitalize l).
Proof.
  induction l as [|s l IH]; intros p Hl Hp; [reflexivity|].
  inversion Hl as [|? ? Hs Hl']; subst.
  destruct l as [|t l].
  - cbn [snake map concat]. rewrite <- (app_nil_r s) at 1.
    destruct (camel_one s p [] Hs Hp (or_introl eq_refl)) as (q & _ & E). rewrite E. reflexivity.
  - change (snake (s :: t :: l)) with (s ++ x5f :: snake (t :: l)).
    destruct (camel_one s p (x5f :: snake (t :: l)) Hs Hp ltac:(right; eexists; reflexivity)) as (q & Hq & ->).
    change (concat (map capitalize (s :: t :: l))) with (capitalize s ++ concat (map capitalize (t :: l))).
    f_equal. cbn [camel andb]. change (beqb x5f x2e) with false. change (beqb x5f x5f) with true. cbn [andb].
    destruct (beqb_spec q x2e); [congruence|].
    assert (next_lower (snake (t :: l)) = true) as ->.
    { inversion Hl'; subst. destruct l; cbn [snake]; [rewrite <- (app_nil_r t)|]; apply next_word; assumption. }
    apply IH; [assumption|discriminate].
Qed.

Lemma camel_snake : forall l, Forall word l -> GoCamelCase (snake l) = concat (map capitalize l).
Proof. intros. apply camel_snake_go; [assumption|discriminate]. Qed.
