(** AdaptivePredict with its two stages (Sll.v) is right for the calls the parser makes. *)
From Coq Require Import List ZArith Bool Arith Lia.
From Verif Require Import ParserNames Parser ParserSpec ParserProofs Sll ParserFull ParserPredict.
Import ListNotations.
Open Scope Z_scope.

(* ---------- the tables ---------- *)
Lemma calls_below p q rest : In (q, rest) (calls p) -> (p < 53)%nat /\ (q < 53)%nat.
Proof.
  intros I. destruct (Nat.lt_ge_cases p 53) as [L|G].
  - split; [exact L|].
    assert (E : forallb (fun p => forallb (fun c => Nat.ltb (fst c) 53) (calls p)) (seq 0 53) = true) by (vm_compute; reflexivity).
    rewrite forallb_forall in E. specialize (E p (proj2 (in_seq _ _ _) (conj (Nat.le_0_l p) L))). rewrite forallb_forall in E.
    specialize (E _ I). now apply Nat.ltb_lt in E.
  - replace p with (53 + (p - 53))%nat in I by lia. unfold calls, rhs in I. rewrite body_beyond in I. destruct I.
Qed.
Lemma followers_in p q rest : In (q, rest) (calls p) -> In (p, rest) (followers q).
Proof.
  intros I. destruct (calls_below _ _ _ I) as [L _]. unfold followers. apply in_flat_map. exists p. split; [apply in_seq; lia|].
  apply in_flat_map. exists (q, rest). split; [exact I|]. cbn [fst snd]. rewrite Nat.eqb_refl. now left.
Qed.
Definition after_from (f : nat -> list (list sym * nat)) (q : nat) : list (list sym * nat) :=
  match followers q with
  | [] => [([], q)]
  | l => flat_map (fun p =>
           let (hs, e) := heads_seq (heads_rule depth) (snd p) in
           map (fun h => (h, fst p)) hs ++ (if e then f (fst p) else [])) l
  end.
Lemma after_rule_fix q : (q < 53)%nat -> after_rule depth q = after_from (after_rule depth) q.
Proof.
  intros L. assert (E : map (after_rule depth) (seq 0 53) = map (after_from (after_rule depth)) (seq 0 53)) by (vm_compute; reflexivity).
  apply (f_equal (fun l => nth q l (after_rule depth 0))) in E. rewrite (map_nth (after_rule depth)), seq_nth in E by exact L. cbn [Nat.add] in E.
  rewrite E. rewrite (nth_indep _ _ (after_from (after_rule depth) 0)) by (now rewrite map_length, seq_length).
  rewrite (map_nth (after_from (after_rule depth))), seq_nth by exact L. reflexivity.
Qed.
Lemma decision_ok q d ls : In (d, ls) (decisions_seq (body q) []) -> decision d = Some (q, ls).
Proof.
  intros I. destruct (Nat.lt_ge_cases q 53) as [L|G].
  - assert (E : Forall (fun q => Forall (fun p => decision (fst p) = Some (q, snd p)) (decisions_seq (body q) [])) (seq 0 53))
      by (vm_compute; repeat constructor).
    rewrite Forall_forall in E. specialize (E q (proj2 (in_seq _ _ _) (conj (Nat.le_0_l q) L))).
    rewrite Forall_forall in E. exact (E _ I).
  - replace q with (53 + (q - 53))%nat in I by lia. rewrite body_beyond in I. destruct I.
Qed.

(* ---------- closures ---------- *)
Local Opaque rule rhs body heads_rule heads_seq heads followers calls decisions_seq decision.
Lemma heads_is l : heads_seq (heads_rule depth) l = heads l.
Proof. reflexivity. Qed.
Lemma heads_shape l c : In c (fst (heads l)) -> exists ks c', c = T ks :: c'.
Proof.
  intros I. assert (A : at_token (heads l)).
  { rewrite <- heads_is. apply seq_shape, Forall_forall. intros s _. apply sym_shape, rule_shape. }
  specialize (A _ I). destruct c as [|[ks| | | | |] c']; try contradiction. eauto.
Qed.
(** a configuration from which the tokens can be read *)
Definition leads (cs : list (list sym * nat)) (w : list tok) : Prop :=
  exists l q k, In (l, q) cs /\ outer q k /\ viable (l ++ k) w /\
    match w with [] => l = [] | _ :: _ => exists ks l', l = T ks :: l' end.
Lemma leads_incl a b w : incl a b -> leads a w -> leads b w.
Proof. intros I (l & q & k & J & O & V). exists l, q, k. split; [now apply I|]. auto. Qed.
Lemma sclosure_step q k : outer q k -> (forall w, viable k w -> leads (after_rule depth q) w) ->
  forall l w, viable (l ++ k) w -> leads (sclosure l q) w.
Proof.
  intros Ou A l w [f D]. apply derives_heads in D. rewrite heads_app in D. unfold sclosure. rewrite heads_is.
  destruct (heads_sound k) as [S1 S2]. pose proof (heads_shape l) as Sh. destruct (heads l) as [hs e]. cbn [fst snd] in D, Sh.
  destruct w as [|x w].
  - destruct e; cbn in D; [|discriminate]. specialize (S2 [] [] D). rewrite app_nil_r in S2.
    eapply leads_incl; [|apply A, S2; exists []; constructor]. now apply incl_appr, incl_refl.
  - assert (C : exists ks l', (In (T ks :: l') (before hs k) \/ (e = true /\ In (T ks :: l') (fst (heads k)))) /\ In (t_kind x) ks /\ viable l' w).
    { destruct e; cbn in D; destruct D as (ks & l' & I & J & V); exists ks, l'; (split; [|auto]).
      - apply in_app_or in I. tauto.
      - auto. }
    destruct C as (ks & l' & [I|[-> I]] & J & V).
    + unfold before in I. apply in_map_iff in I. destruct I as (c & Ec & I). destruct (Sh _ I) as (ks' & c' & ->).
      injection Ec as -> <-. exists (T ks :: c'), q, k. split; [apply in_or_app; left; apply in_map_iff; now exists (T ks :: c')|].
      split; [exact Ou|]. split; [|eauto]. destruct V as [g V]. exists (Leaf x :: g). cbn [app]. now constructor.
    + eapply leads_incl; [|apply A].
      * now apply incl_appr, incl_refl.
      * specialize (S1 (T ks :: l') [] (x :: w) I). rewrite !app_nil_r in S1. apply S1. destruct V as [g V]. exists (Leaf x :: g). now constructor.
Qed.
Lemma after_leads q k : outer q k -> forall w, viable k w -> leads (after_rule depth q) w.
Proof.
  induction 1 as [|p q rest k I O IH]; intros w V.
  - destruct V as [f D]. inversion D; subst. exists [], r_proto, []. split.
    + rewrite after_rule_fix by (apply Nat.ltb_lt; reflexivity). with_strategy transparent [rhs body followers calls] (vm_compute). now left.
    + split; [constructor|]. split; [exists []; constructor|reflexivity].
  - destruct (calls_below _ _ _ I) as [_ L]. rewrite (after_rule_fix _ L). apply followers_in in I. unfold after_from.
    apply (leads_incl (sclosure rest p)); [|now apply (sclosure_step p k O IH)].
    destruct (followers q) as [|y fs] eqn:Ef; [destruct I|]. rewrite <- Ef in *. intros z Hz. apply in_flat_map. exists (p, rest). split; [exact I|].
    exact Hz.
Qed.
Lemma sclosure_leads q k l w : outer q k -> viable (l ++ k) w -> leads (sclosure l q) w.
Proof. intros O. apply (sclosure_step q k O). now apply after_leads. Qed.

(* ---------- the first stage ---------- *)
Definition alive (cs : list sconfig) (w : list tok) (i : nat) : Prop :=
  exists l q k, In (i, (l, q)) cs /\ outer q k /\ viable (l ++ k) w /\
    match w with [] => l = [] | _ :: _ => exists ks l', l = T ks :: l' end.
Lemma alive_reach cs x w i : eof_last (x :: w) -> alive cs (x :: w) i -> alive (sreach (t_kind x) cs) w i.
Proof.
  intros EL (l & q & k & I & O & [f D] & ks & l' & ->). cbn [app] in D. inversion D; subst.
  destruct (sclosure_leads q k l' w O) as (l2 & q2 & k2 & I2 & O2 & V2 & M2); [eexists; eassumption|].
  exists l2, q2, k2. split; [|auto]. unfold sreach. apply filter_In. split.
  - apply in_concat. exists (map (pair i) (sclosure l' q)). split; [|now apply in_map].
    apply in_map_iff. exists (i, (T ks :: l', q)). split; [|exact I]. cbn [fst snd].
    match goal with H : In (t_kind x) ks |- _ => apply mem_In in H; now rewrite H end.
  - cbn [fst snd]. destruct (t_kind x =? EOF) eqn:E; [|reflexivity]. apply Z.eqb_eq in E. specialize (EL [] x w eq_refl E). subst w. cbn in M2. now subst l2.
Qed.
Lemma alive_start q ls k w i l : outer q k -> nth_error ls i = Some l -> viable (l ++ k) w -> alive (sstart q ls) w i.
Proof.
  intros O E V. destruct (sclosure_leads q k l w O V) as (l2 & q2 & k2 & I2 & O2 & V2 & M2). exists l2, q2, k2. split; [|auto].
  unfold sstart. apply in_concat. exists (map (pair i) (sclosure l q)). split; [|now apply in_map].
  apply in_map_iff. exists (i, l). split; [reflexivity|]. exact (in_combine_seq _ _ _ E 0).
Qed.
Lemma unique_all cs a i c : unique cs = Some a -> In (i, c) cs -> a = i.
Proof.
  destruct cs as [|x cs]; [discriminate|]. cbn [unique]. match goal with |- context[forallb ?f cs] => destruct (forallb f cs) eqn:F end; [|intros H; discriminate H]. intros [= <-] [->|I]; [reflexivity|].
  rewrite forallb_forall in F. specialize (F _ I). cbn [fst] in F. apply Nat.eqb_eq in F. congruence.
Qed.
Section Adaptive.
Variable conflict : nat -> list tok -> bool.
Variable recover : nat -> list tok -> option nat.
Variable wait : nat -> list tok -> bool.
Lemma exec_sll_right d w : forall cs a, eof_last w -> exec_sll conflict recover d cs w = Answer a ->
  forall i, alive cs w i -> a = Some i.
Proof.
  induction w as [|x w IH]; intros cs a EL E i Al; cbn [exec_sll] in E; [discriminate|].
  pose proof (alive_reach cs x w i EL Al) as Al'. destruct (sreach (t_kind x) cs) as [|c cs'] eqn:Er.
  - destruct Al' as (l & q & k & [] & _).
  - destruct (unique (c :: cs')) as [b|] eqn:Eu.
    + injection E as <-. destruct Al' as (l & q & k & I & _). f_equal. exact (unique_all _ _ _ _ Eu I).
    + destruct (conflict d w); [discriminate|]. apply (IH (c :: cs')); auto. now apply (eof_last_app [x]) in EL.
Qed.

(* ---------- the second stage, as in ParserPredict.v ---------- *)
Lemma exec_full_wait_right d w : forall cs,
  (forall i c, In (i, c) cs -> match c with [] | T _ :: _ => True | _ => False end) ->
  eof_last w -> least_live cs w (exec_full_wait recover wait d cs w).
Proof.
  induction w as [|x w IH]; intros cs Sh EL (i & c & I & V).
  - pose proof (exec_full_right [] cs Sh EL (ex_intro _ i (ex_intro _ c (conj I V)))) as H.
    cbn [exec_full exec_full_wait] in *. destruct (filter _ cs); [|exact H]. destruct H as (m & Em & _). discriminate.
  - cbn [exec_full_wait]. set (cs' := reach (t_kind x) cs).
    assert (Lv : forall j, live cs (x :: w) j <-> live cs' w j) by (intros j; now apply live_reach).
    assert (Sh' : forall j d, In (j, d) cs' -> match d with [] | T _ :: _ => True | _ => False end).
    { intros j e J. apply in_reach in J. destruct J as [(ks & l & _ & _ & C) _]. revert C. apply closure_shape. }
    assert (L : live cs' w i) by (apply Lv; exists c; auto).
    assert (G : least_live cs' w (match (if wait d w then None else resolve cs') with Some m => Some m | None => exec_full_wait recover wait d cs' w end)).
    { assert (IH' : least_live cs' w (exec_full_wait recover wait d cs' w)) by (apply IH; [exact Sh'|now apply (eof_last_app [x]) in EL]).
      destruct (wait d w); [exact IH'|]. destruct (resolve cs') as [m|] eqn:Er; [|exact IH']. intros _.
      unfold resolve in Er. match type of Er with context[forallb ?f cs'] => destruct (forallb f cs') eqn:Fa end; [|discriminate]. injection Er as <-.
      exists (least cs'). split; [reflexivity|]. split.
      - destruct L as (e & J & Vd). rewrite forallb_forall in Fa. specialize (Fa _ J). apply has_In in Fa. exists e. auto.
      - intros j Lj (e & J & _). apply least_le in J. cbn in J. lia. }
    destruct (G (ex_intro _ _ L)) as (m & A & B & C).
    exists m. split; [|split; [now apply Lv|]].
    + destruct cs' as [|c1 cs1]; [destruct L as (e & [] & _)|]. exact A.
    + intros j Lj H. apply (C j Lj), Lv, H.
Qed.
Lemma full_wait_right d alts w : eof_last w -> right_prediction alts w (exec_full_wait recover wait d (start alts) w).
Proof.
  intros EL. apply start_right. apply exec_full_wait_right; [|exact EL].
  intros j c J. apply in_start in J. destruct J as (m & _ & Cm). revert Cm. apply closure_shape.
Qed.
Theorem adaptive_right : right_calls (adaptive conflict recover wait).
Proof.
  intros d alts w (q & ls & k & I & O & ->) EL. unfold adaptive. rewrite (decision_ok _ _ _ I).
  destruct (exec_sll conflict recover d (sstart q ls) w) as [a|] eqn:E; [|now apply full_wait_right].
  intros (l & Il & V). apply in_map_iff in Il. destruct Il as (l0 & <- & Il). destruct (In_nth_error _ _ Il) as [i Ei].
  pose proof (exec_sll_right d w _ _ EL E) as R.
  assert (Ea : a = Some i) by (apply R; now apply (alive_start q ls k w i l0)).
  exists i, (l0 ++ k). split; [exact Ea|]. split; [rewrite nth_error_map, Ei; reflexivity|]. split; [exact V|].
  intros j l' Lj Ej Vj. rewrite nth_error_map in Ej. destruct (nth_error ls j) as [lj|] eqn:Enj; [|discriminate]. injection Ej as <-.
  assert (a = Some j) by (apply R; now apply (alive_start q ls k w j lj)). assert (i = j) by congruence. lia.
Qed.
End Adaptive.
