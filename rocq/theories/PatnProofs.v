(** The network of the parser reads what the grammar derives: every state is given what it
    stands for in a rule, and the transitions are checked against this. *)
From Coq Require Import List ZArith Bool Arith Lia FMapPositive.
From Verif Require Import Base Atn ParserNames ParserTable Parser ParserSpec ParserProofs ParserFull ParserPredict Sll Patn PatnSpec.
Import ListNotations.
Open Scope Z_scope.

(* ---------- what a state stands for ---------- *)
Definition norm (l : list sym) : list sym :=
  match l with Plus b :: l' => b ++ Star b :: l' | _ => l end.
Definition unfolded (l : list sym) : list (list sym) :=
  match l with
  | Opt [Alt bs] :: l' => map (fun b => b ++ l') bs ++ [l']
  | Opt b :: l' => [b ++ l'; l']
  | Star b :: l' => [b ++ Star b :: l'; l']
  | Alt bs :: l' => map (fun b => b ++ l') bs
  | _ => []
  end.
Definition labels := PositiveMap.t (list sym).
Definition next_labels (a : patn) (s : Z) (l : list sym) : list (Z * list sym) :=
  match p_trans a s with
  | [TEps t] => [(t, l)]
  | [TAtom t _] | [TSet t _] | [TRule _ t] => match l with _ :: l' => [(t, norm l')] | [] => [] end
  | ts => combine (map target ts) (map norm (unfolded l))
  end.
Fixpoint label (a : patn) (fuel : nat) (work : list (Z * list sym)) (m : labels) : labels :=
  match fuel, work with
  | S n, (s, l) :: work' =>
      match PositiveMap.find (key s) m with
      | Some _ => label a n work' m
      | None => label a n (next_labels a s l ++ work') (PositiveMap.add (key s) l m)
      end
  | _, _ => m
  end.
Definition start_labels : list (Z * list sym) :=
  map (fun q => (nth q (p_starts net) (-1), norm (rule q))) (seq 0 53).
Definition the_labels : labels := label net 3000 start_labels (PositiveMap.empty _).
Definition res (s : Z) : option (list sym) := if s <? 0 then None else PositiveMap.find (key s) the_labels.

(* ---------- the check ---------- *)
Definition is_label (o : option (list sym)) (l : list sym) : bool :=
  match o with Some l' => seq_eqb l l' | None => false end.
Definition goes_b (s t : Z) (l : list sym) : bool := is_label (res t) l && (p_rule net t =? p_rule net s).
Definition same_tokens (tr : trans) (ks : list Z) : bool :=
  match tr with
  | TAtom _ k => match ks with [k'] => k =? k' | _ => false end
  | TSet _ i => forallb (contains i) ks &&
      forallb (fun v => forallb (fun d => mem (fst v + Z.of_nat d) ks) (seq 0 (Z.to_nat (snd v - fst v)))) i
  | _ => false
  end.
Fixpoint settles (n : nat) (s : Z) : bool :=
  match p_trans net s with
  | [TEps t] => match n with O => false | S n' => settles n' t end
  | _ => true
  end.
Definition is_free (t : trans) : bool := match t with TEps _ => true | _ => false end.
Fixpoint goes_all (s : Z) (ts : list trans) (es : list (list sym)) : bool :=
  match ts, es with
  | [], [] => true
  | t :: ts', e :: es' => is_free t && goes_b s (target t) (norm e) && goes_all s ts' es'
  | _, _ => false
  end.
Definition ok (s : Z) (l : list sym) : bool :=
  match p_trans net s with
  | [] => (p_type net s =? ATNStateRuleStop) && match l with [] => true | _ => false end
  | ts =>
      negb (p_type net s =? ATNStateRuleStop) &&
      match ts with
      | [TEps t] => goes_b s t l && settles 20 s
      | [TRule st f] =>
          match l with
          | N q :: l' => (p_rule net st =? Z.of_nat q) && is_label (res st) (norm (rule q)) && goes_b s f (norm l')
          | _ => false
          end
      | [tr] =>
          match l with
          | T ks :: l' => same_tokens tr ks && goes_b s (target tr) (norm l')
          | _ => false
          end
      | _ => goes_all s ts (unfolded l)
      end
  end.
Lemma all_ok : forallb (fun p => ok (Z.pos (fst p) - 1) (snd p)) (PositiveMap.elements the_labels) = true.
Proof. vm_compute. reflexivity. Qed.
Lemma starts_ok : forallb (fun q => is_label (res (nth q (p_starts net) (-1))) (norm (rule q)) &&
    (p_rule net (nth q (p_starts net) (-1)) =? Z.of_nat q)) (seq 0 53) = true.
Proof. vm_compute. reflexivity. Qed.

(* ---------- what the check says ---------- *)
Local Opaque net the_labels rule.
Lemma label_is o l : is_label o l = true -> o = Some l.
Proof.
  destruct o as [l'|]; [|discriminate]. cbn. intros E. f_equal. symmetry. apply (seq_eqb_sound l); [|exact E].
  apply Forall_forall. intros s _. apply sym_eqb_sound.
Qed.
Definition goes (s t : Z) (l : list sym) : Prop := res t = Some l /\ p_rule net t = p_rule net s.
Lemma goes_is s t l : goes_b s t l = true -> goes s t l.
Proof. unfold goes_b. intros E. apply andb_prop in E as [A B]. split; [now apply label_is|now apply Z.eqb_eq]. Qed.
Lemma res_ok s l : res s = Some l -> ok s l = true.
Proof.
  unfold res. destruct (s <? 0) eqn:E; [discriminate|]. apply Z.ltb_ge in E. intros F.
  apply PositiveMap.elements_correct in F. pose proof (proj1 (forallb_forall _ _) all_ok _ F) as H. cbn [fst snd] in H.
  replace (Z.pos (key s) - 1) with s in H by (unfold key; rewrite Z2Pos.id; lia). exact H.
Qed.
Lemma same_tokens_is tr ks : same_tokens tr ks = true -> forall k, matches_token tr k = true <-> In k ks.
Proof.
  destruct tr; try discriminate; cbn.
  - destruct ks as [|k' [|? ?]]; try discriminate. intros E k. apply Z.eqb_eq in E. subst. split.
    + intros H. apply Z.eqb_eq in H. now left.
    + intros [->|[]]. apply Z.eqb_refl.
  - intros E k. apply andb_prop in E as [A B]. rewrite forallb_forall in A, B. split; [|apply A].
    unfold contains. intros H. apply existsb_exists in H as (v & Iv & Hv). specialize (B _ Iv). rewrite forallb_forall in B.
    apply andb_prop in Hv as [L H]. apply Z.leb_le in L. apply Z.ltb_lt in H.
    specialize (B (Z.to_nat (k - fst v))). apply mem_In. replace k with (fst v + Z.of_nat (Z.to_nat (k - fst v))) by lia. apply B.
    apply in_seq. lia.
Qed.
Inductive state_case (s : Z) (l : list sym) : Prop :=
| case_stop : p_trans net s = [] -> p_type net s = ATNStateRuleStop -> l = [] -> state_case s l
| case_token tr ks l' : p_trans net s = [tr] -> p_type net s <> ATNStateRuleStop -> l = T ks :: l' ->
    (forall k, matches_token tr k = true <-> In k ks) -> is_epsilon tr = false -> goes s (target tr) (norm l') -> state_case s l
| case_rule st f q l' : p_trans net s = [TRule st f] -> p_type net s <> ATNStateRuleStop -> l = N q :: l' ->
    p_rule net st = Z.of_nat q -> res st = Some (norm (rule q)) -> goes s f (norm l') -> state_case s l
| case_free t : p_trans net s = [TEps t] -> p_type net s <> ATNStateRuleStop -> goes s t l -> settles 20 s = true -> state_case s l
| case_choice ts : p_trans net s = map TEps ts -> p_type net s <> ATNStateRuleStop -> (2 <= length ts)%nat ->
    Forall2 (fun t e => goes s t (norm e)) ts (unfolded l) -> state_case s l.
Lemma goes_all_is s : forall ts es, goes_all s ts es = true ->
  exists xs, ts = map TEps xs /\ Forall2 (fun t e => goes s t (norm e)) xs es.
Proof.
  induction ts as [|t ts IH]; intros [|e es] E; cbn in E; try discriminate.
  - exists []. auto.
  - apply andb_prop in E as [E E2]. apply andb_prop in E as [E0 E1]. destruct t as [t| | | | | | |]; try discriminate.
    destruct (IH _ E2) as (xs & -> & F). exists (t :: xs). split; [reflexivity|]. constructor; [|exact F]. now apply goes_is.
Qed.
Lemma stop_neq s : negb (p_type net s =? ATNStateRuleStop) = true -> p_type net s <> ATNStateRuleStop.
Proof. intros E H. rewrite H in E. discriminate. Qed.
Lemma cases s l : res s = Some l -> state_case s l.
Proof.
  intros R. apply res_ok in R. unfold ok in R.
  assert (Ch : forall t1 t2 ts, p_trans net s = t1 :: t2 :: ts -> goes_all s (t1 :: t2 :: ts) (unfolded l) = true ->
    p_type net s <> ATNStateRuleStop -> state_case s l).
  { intros t1 t2 ts Et G Ty. destruct (goes_all_is _ _ _ G) as (xs & Ex & F). apply (case_choice s l xs); auto.
    - congruence.
    - apply (f_equal (@length trans)) in Ex. rewrite map_length in Ex. cbn in Ex. lia. }
  destruct (p_trans net s) as [|t1 [|t2 ts]] eqn:Et.
  - apply andb_prop in R as [A B]. apply case_stop; [exact Et|now apply Z.eqb_eq|]. destruct l; [reflexivity|discriminate].
  - apply andb_prop in R as [A B]. apply stop_neq in A.
    destruct t1; try (destruct l as [|[ks| | | | |] l']; try discriminate B; apply andb_prop in B as [B1 B2]; apply goes_is in B2;
      pose proof (same_tokens_is _ _ B1) as B1'; try discriminate B1; eapply case_token; eauto; fail).
    + apply andb_prop in B as [B1 B2]. apply goes_is in B1. eapply case_free; eauto.
    + destruct l as [|[|q| | | |] l']; try discriminate B. apply andb_prop in B as [B B3]. apply andb_prop in B as [B1 B2].
      apply Z.eqb_eq in B1. apply label_is in B2. apply goes_is in B3. eapply case_rule; eauto.
  - apply andb_prop in R as [A B]. apply stop_neq in A. apply (Ch t1 t2 ts eq_refl); auto.
    destruct t1; exact B.
Qed.

(* ---------- derivations with their height ---------- *)
Inductive dern : nat -> list sym -> list tok -> Prop :=
| n_nil : dern 0 [] []
| n_tok n ks l x w : In (t_kind x) ks -> dern n l w -> dern (S n) (T ks :: l) (x :: w)
| n_rule n1 n2 r l w1 w2 : dern n1 (rule r) w1 -> dern n2 l w2 -> dern (S (n1 + n2)) (N r :: l) (w1 ++ w2)
| n_opt_no n b l w : dern n l w -> dern (S n) (Opt b :: l) w
| n_opt n b l w : dern n (b ++ l) w -> dern (S n) (Opt b :: l) w
| n_star_end n b l w : dern n l w -> dern (S n) (Star b :: l) w
| n_star n b l w : dern n (b ++ Star b :: l) w -> dern (S n) (Star b :: l) w
| n_plus n b l w : dern n (b ++ Star b :: l) w -> dern (S n) (Plus b :: l) w
| n_alt n b bs l w : In b bs -> dern n (b ++ l) w -> dern (S n) (Alt bs :: l) w.
Lemma derives_dern l w f : derives l w f -> exists n, dern n l w.
Proof.
  induction 1 as [|ks l x w f K D [n IH]|r l w1 f1 w2 f2 D1 [n1 IH1] D2 [n2 IH2]|b l w f D [n IH]|b l w f D [n IH]|b l w f D [n IH]|b l w f D [n IH]|b l w f D [n IH]|b bs l w f I D [n IH]];
    eexists; try (econstructor; eassumption).
Qed.
Lemma norm_dern n l w : dern n l w -> exists m, (m <= n)%nat /\ dern m (norm l) w.
Proof.
  intros D. destruct l as [|[ks|q|b|b|b|bs] l]; cbn [norm]; try (exists n; split; [lia|exact D]).
  inversion D; subst. eexists. split; [|eassumption]. lia.
Qed.
Lemma norm_viable l w : viable (norm l) w -> viable l w.
Proof. destruct l as [|[ks|q|b|b|b|bs] l]; cbn [norm]; auto. intros [f D]. exists f. now constructor. Qed.
Lemma unfolded_dern n l w : match l with (Opt _ | Star _ | Alt _) :: _ => True | _ => False end -> dern n l w ->
  exists e m, In e (unfolded l) /\ (m < n)%nat /\ dern m e w.
Proof.
  destruct l as [|[ks|q|b|b|b|bs] l]; try contradiction; intros _ D.
  - assert (G : (forall e, e = b ++ l \/ e = l -> In e (unfolded (Opt b :: l))) -> exists e m, In e (unfolded (Opt b :: l)) /\ (m < n)%nat /\ dern m e w).
    { intros H. inversion D as [| | |n' b0 l0 w0 D'|n' b0 l0 w0 D'| | | |]; subst; eexists; exists n'; (split; [|split; [|exact D']]); auto. }
    destruct b as [|[ks|q|b0|b0|b0|bs] [|y b]]; try (apply G; intros e [->| ->]; cbn [unfolded In]; auto; fail).
    inversion D as [| | |n' b0 l0 w0 D'|n' b0 l0 w0 D'| | | |]; subst.
    + exists l. exists n'. split; [apply in_or_app; right; now left|]. split; [lia|exact D'].
    + cbn [app] in D'. inversion D' as [| | | | | | | |n2 b1 bs1 l1 w1 I1 D1]; subst.
      exists (b1 ++ l). exists n2. split; [apply in_or_app; left; apply in_map_iff; eauto|]. split; [lia|exact D1].
  - inversion D; subst; clear D; eexists; eexists; (split; [|split; [|eassumption]]; [cbn; auto|lia]).
  - inversion D as [| | | | | | | |n' b0 bs0 l0 w0 I' D']; subst. exists (b0 ++ l), n'. split; [apply in_map_iff; eauto|]. split; [lia|exact D'].
Qed.
Lemma unfolded_viable l e w : In e (unfolded l) -> viable e w -> viable l w.
Proof.
  destruct l as [|[ks|q|b|b|b|bs] l]; try contradiction; intros I [f D].
  - assert (G : e = b ++ l \/ e = l -> viable (Opt b :: l) w).
    { intros [-> | ->]; exists f; [now apply d_opt|now constructor]. }
    destruct b as [|[ks|q|b0|b0|b0|bs] [|y b]]; try (destruct I as [<-|[<-|[]]]; apply G; auto; fail).
    apply in_app_or in I as [I|[<-|[]]]; [|apply G; auto].
    apply in_map_iff in I as (b & <- & I). exists f. apply d_opt. cbn [app]. now apply (d_alt b).
  - destruct I as [<-|[<-|[]]]; exists f; [now apply d_star|now constructor].
  - apply in_map_iff in I as (b & <- & I). exists f. now apply (d_alt b).
Qed.

(* ---------- both directions ---------- *)
Lemma Forall2_left {A B} (P : A -> B -> Prop) l m x : Forall2 P l m -> In x l -> exists y, In y m /\ P x y.
Proof.
  induction 1 as [|a b l m H F IH]; [contradiction|]. intros [->|I]; [exists b; split; [now left|exact H]|].
  destruct (IH I) as (y & J & K). exists y. split; [now right|exact K].
Qed.
Lemma Forall2_right {A B} (P : A -> B -> Prop) l m y : Forall2 P l m -> In y m -> exists x, In x l /\ P x y.
Proof.
  induction 1 as [|a b l m H F IH]; [contradiction|]. intros [->|I]; [exists a; split; [now left|exact H]|].
  destruct (IH I) as (x & J & K). exists x. split; [now right|exact K].
Qed.
Lemma viable_nil : viable [] [].
Proof. exists []. constructor. Qed.
Lemma reads_sound s w e : reads net s w e -> forall l, res s = Some l ->
  exists le, res e = Some le /\ p_rule net e = p_rule net s /\ forall v, viable le v -> viable l (w ++ v).
Proof.
  induction 1 as [s|s t w e I R IH|s tr x w e I M R IH|s st f stop u v e I Ty Ru R1 IH1 R2 IH2]; intros l Rl.
  - exists l. auto.
  - assert (G : exists l', goes s t l' /\ forall v, viable l' v -> viable l v).
    { destruct (cases s l Rl) as [E _ _|tr ks l' E _ _ M Ep _|st f q l' E|t' E _ G _|ts E _ _ F]; rewrite E in I.
      - destruct I.
      - destruct I as [->|[]]. discriminate.
      - destruct I as [I|[]]. discriminate.
      - destruct I as [[= ->]|[]]. exists l. auto.
      - apply in_map_iff in I as (t' & [= ->] & I). destruct (Forall2_left _ _ _ _ F I) as (e' & Ie & G).
        exists (norm e'). split; [exact G|]. intros v V. apply norm_viable in V. now apply (unfolded_viable l e'). }
    destruct G as (l' & [Rt Rut] & V). destruct (IH _ Rt) as (le & A & B & C). exists le. split; [exact A|]. split; [congruence|auto].
  - destruct (cases s l Rl) as [E _ _|tr' ks l' E _ -> M' Ep [G Ru]|st f q l' E|t' E _ G _|ts E _ _ F]; rewrite E in I.
    + destruct I.
    + destruct I as [->|[]]. destruct (IH _ G) as (le & A & B & C). exists le. split; [exact A|]. split; [congruence|].
      intros v V. apply C, norm_viable in V as [g D]. exists (Leaf x :: g). cbn [app]. constructor; [now apply M'|exact D].
    + destruct I as [<-|[]]. discriminate.
    + destruct I as [<-|[]]. discriminate.
    + apply in_map_iff in I as (t' & <- & _). discriminate.
  - destruct (cases s l Rl) as [E _ _|tr' ks l' E _ -> M' Ep G|st' f' q l' E _ -> Rq Rs [G Ruf]|t' E _ G _|ts E _ _ F]; rewrite E in I.
    + destruct I.
    + destruct I as [->|[]]. discriminate.
    + destruct I as [[= -> ->]|[]]. destruct (IH1 _ Rs) as (l1 & A1 & B1 & C1).
      destruct (cases _ _ A1) as [E1 _ ->|? ? ? ? T1|? ? ? ? ? T1|? ? T1|? ? T1]; try (now destruct (T1 Ty)).
      destruct (IH2 _ G) as (le & A & B & C). exists le. split; [exact A|]. split; [congruence|]. intros v' V.
      specialize (C1 _ viable_nil). rewrite app_nil_r in C1. apply norm_viable in C1 as [g1 D1]. apply C, norm_viable in V as [g D].
      exists (Node q g1 :: g). rewrite <- app_assoc. now constructor.
    + destruct I as [I|[]]. discriminate.
    + apply in_map_iff in I as (t' & I & _). discriminate.
Qed.
Lemma reads_complete n : forall s l w, res s = Some l -> dern n l w ->
  exists stop, p_type net stop = ATNStateRuleStop /\ p_rule net stop = p_rule net s /\ reads net s w stop.
Proof.
  induction n as [n IHn] using lt_wf_ind.
  assert (G : forall k s l w, settles k s = true -> res s = Some l -> dern n l w ->
    exists stop, p_type net stop = ATNStateRuleStop /\ p_rule net stop = p_rule net s /\ reads net s w stop).
  { induction k as [k IHk] using lt_wf_ind. intros s l w St Rl D.
    destruct (cases s l Rl) as [E Ty ->|tr ks l' E _ -> M Ep [G Ru]|st f q l' E _ -> Rq Rs [G Ru]|t E _ [G Ru] _|ts E _ Ln F].
    - inversion D; subst. exists s. split; [exact Ty|]. split; [reflexivity|constructor].
    - inversion D as [|n' ks' l0 x w' K D'| | | | | | |]; subst. destruct (norm_dern _ _ _ D') as (m & Lm & Dm).
      destruct (IHn m ltac:(lia) _ _ _ G Dm) as (stop & A & B & C). exists stop. split; [exact A|]. split; [congruence|].
      apply (reads_token net s tr); [rewrite E; now left|now apply M|exact C].
    - inversion D as [| |n1 n2 r0 l0 w1 w2 D1 D2| | | | | |]; subst. destruct (norm_dern _ _ _ D1) as (m1 & L1 & Dm1).
      destruct (norm_dern _ _ _ D2) as (m2 & L2 & Dm2). destruct (IHn m1 ltac:(lia) _ _ _ Rs Dm1) as (stop1 & A1 & B1 & C1).
      destruct (IHn m2 ltac:(lia) _ _ _ G Dm2) as (stop & A & B & C). exists stop. split; [exact A|]. split; [congruence|].
      apply (reads_rule net s st f stop1); auto. rewrite E. now left.
    - destruct k as [|k]; cbn [settles] in St; rewrite E in St; [discriminate|].
      destruct (IHk k ltac:(lia) _ _ _ St G D) as (stop & A & B & C). exists stop. split; [exact A|]. split; [congruence|].
      apply (reads_free net s t); [rewrite E; now left|exact C].
    - assert (Sh : match l with (Opt _ | Star _ | Alt _) :: _ => True | _ => False end).
      { destruct l as [|[ks|q|b|b|b|bs] l]; try exact Logic.I; cbn [unfolded] in F; inversion F; subst; cbn in Ln; lia. }
      destruct (unfolded_dern _ _ _ Sh D) as (e & m & Ie & Lm & De). destruct (Forall2_right _ _ _ _ F Ie) as (t & It & [Rt Ru]).
      destruct (norm_dern _ _ _ De) as (m' & Lm' & Dm'). destruct (IHn m' ltac:(lia) _ _ _ Rt Dm') as (stop & A & B & C).
      exists stop. split; [exact A|]. split; [congruence|]. apply (reads_free net s t); [|exact C]. rewrite E. now apply in_map. }
  intros s l w Rl D. apply (G 20%nat s l w); auto. clear -Rl.
  destruct (cases s l Rl) as [E Ty ->|tr ks l' E _ -> M Ep [G Ru]|st f q l' E|t E _ _ St|ts E _ Ln F]; [| | |exact St|]; cbn [settles]; rewrite E.
  - reflexivity.
  - destruct tr; try reflexivity; discriminate Ep.
  - reflexivity.
  - destruct ts as [|t1 [|t2 ts]]; cbn in Ln; try lia. reflexivity.
Qed.
(** A state and what it stands for *)
Theorem state_reads s l q : res s = Some l -> p_rule net s = Z.of_nat q -> forall w, reads_out net q s w <-> viable l w.
Proof.
  intros Rl Ru w. split.
  - intros (stop & Ty & _ & R). destruct (reads_sound _ _ _ R _ Rl) as (le & A & _ & C).
    destruct (cases _ _ A) as [_ _ ->|? ? ? ? T1|? ? ? ? ? T1|? ? T1|? ? T1]; try (now destruct (T1 Ty)).
    specialize (C _ viable_nil). now rewrite app_nil_r in C.
  - intros [f D]. destruct (derives_dern _ _ _ D) as [n Dn]. destruct (reads_complete n _ _ _ Rl Dn) as (stop & A & B & C).
    exists stop. split; [exact A|]. split; [congruence|exact C].
Qed.
Lemma viable_norm l w : viable (norm l) w <-> viable l w.
Proof.
  split; [apply norm_viable|]. intros [f D]. destruct l as [|[ks|q|b|b|b|bs] l]; cbn [norm]; try (now exists f).
  inversion D; subst. now exists f.
Qed.

(* ---------- the numbers in the functions ---------- *)
Definition at_eqb (x y : at_state) : bool :=
  match x, y with
  | AtMatch a, AtMatch b => a =? b
  | AtSet, AtSet | AtSync, AtSync => true
  | AtCall p, AtCall q => Nat.eqb p q
  | _, _ => false
  end.
Lemma at_eqb_is x y : at_eqb x y = true -> x = y.
Proof.
  destruct x, y; cbn; try discriminate; auto; intros E; f_equal; [now apply Z.eqb_eq|now apply Nat.eqb_eq].
Qed.
Definition place_ok (q : nat) (m : Z * at_state) (p : at_state * list sym) : bool :=
  at_eqb (snd m) (fst p) && is_label (res (fst m)) (norm (snd p)) && (p_rule net (fst m) =? Z.of_nat q) &&
  match fst p with
  | AtSync => existsb (Z.eqb (p_type net (fst m))) [3; 4; 5; 9; 10; 11]
  | AtCall q' =>
      match p_trans net (fst m), snd p with
      | [TRule st f], N _ :: rest => (st =? nth q' (p_starts net) (-1)) && goes_b (fst m) f (norm rest)
      | _, _ => false
      end
  | _ => true
  end.
Fixpoint all2 {A B} (f : A -> B -> bool) (l : list A) (m : list B) : bool :=
  match l, m with
  | [], [] => true
  | x :: l', y :: m' => f x y && all2 f l' m'
  | _, _ => false
  end.
Lemma all2_is {A B} (f : A -> B -> bool) l : forall m, all2 f l m = true -> Forall2 (fun x y => f x y = true) l m.
Proof.
  induction l as [|x l IH]; intros [|y m] E; cbn in E; try discriminate; constructor; apply andb_prop in E as [A1 A2]; auto.
Qed.
Transparent net the_labels rule.
Lemma places_ok : forallb (fun q => all2 (place_ok q) (nth q set_states []) (places_seq (body q) [])) (seq 0 53) = true.
Proof. vm_compute. reflexivity. Qed.
Definition alt_ok (q : nat) (tr : trans) (l : list sym) : bool :=
  is_free tr && is_label (res (target tr)) (norm l) && (p_rule net (target tr) =? Z.of_nat q).
Definition decision_ok_b (p : nat * (nat * list (list sym))) : bool :=
  match nth_error (p_decisions net) (fst p) with
  | Some s => all2 (alt_ok (fst (snd p))) (p_trans net s) (snd (snd p)) && (p_rule net s =? Z.of_nat (fst (snd p)))
  | None => false
  end.
Lemma decisions_ok : forallb decision_ok_b decision_table = true.
Proof. vm_compute. reflexivity. Qed.

(* ---------- Sync ---------- *)
Definition sync_ok (m : Z * at_state) (p : at_state * list sym) : bool :=
  match fst p with
  | AtSync =>
      match next_tokens net (fst m) with
      | Some i =>
          let (a, e) := look (snd p) in
          eqb (contains i TokenEpsilon) e && forallb (contains i) a &&
          forallb (fun v => forallb (fun d => (fst v + Z.of_nat d =? TokenEpsilon) || mem (fst v + Z.of_nat d) a) (seq 0 (Z.to_nat (snd v - fst v)))) i
      | None => false
      end
  | _ => true
  end.
Lemma syncs_ok : forallb (fun q => all2 sync_ok (nth q set_states []) (places_seq (body q) [])) (seq 0 53) = true.
Proof. vm_compute. reflexivity. Qed.
Lemma sync_same m p : sync_ok m p = true -> fst p = AtSync -> forall la, net_sync net (fst m) la = Some (sync (snd p) la).
Proof.
  intros E Ea la. unfold sync_ok in E. rewrite Ea in E. unfold net_sync, sync. destruct (next_tokens net (fst m)) as [i|]; [|discriminate].
  cbn [bind]. destruct (look (snd p)) as [a e]. apply andb_prop in E as [E C]. apply andb_prop in E as [A B]. apply eqb_prop in A. rewrite A. f_equal.
  destruct e; [reflexivity|]. cbn [orb]. rewrite forallb_forall in B, C. destruct (mem la a) eqn:M.
  - apply mem_In in M. now apply B.
  - destruct (contains i la) eqn:Ci; [|reflexivity]. pose proof Ci as Ci'. unfold contains in Ci. apply existsb_exists in Ci as (v & Iv & Hv). specialize (C _ Iv).
    rewrite forallb_forall in C. apply andb_prop in Hv as [L H]. apply Z.leb_le in L. apply Z.ltb_lt in H.
    specialize (C (Z.to_nat (la - fst v)) ltac:(apply in_seq; lia)). replace (fst v + Z.of_nat (Z.to_nat (la - fst v))) with la in C by lia.
    rewrite M, orb_false_r in C. apply Z.eqb_eq in C. subst la. congruence.
Qed.
