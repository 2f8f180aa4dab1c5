(** The prediction with full context (Parser.v) is right. *)
From Coq Require Import List ZArith Bool Arith Lia.
From Verif Require Import ParserNames Parser ParserSpec ParserProofs ParserFull.
Import ListNotations.
Open Scope Z_scope.

(* ---------- induction on symbols ---------- *)
Section SymInd.
Variable P : sym -> Prop.
Hypothesis HT : forall ks, P (T ks).
Hypothesis HN : forall r, P (N r).
Hypothesis HO : forall b, Forall P b -> P (Opt b).
Hypothesis HS : forall b, Forall P b -> P (Star b).
Hypothesis HP : forall b, Forall P b -> P (Plus b).
Hypothesis HA : forall bs, Forall (Forall P) bs -> P (Alt bs).
Fixpoint sym_all (s : sym) : P s :=
  let seq := fix seq l : Forall P l :=
    match l with [] => Forall_nil _ | s :: l' => Forall_cons _ (sym_all s) (seq l') end in
  match s with
  | T ks => HT ks
  | N r => HN r
  | Opt b => HO b (seq b)
  | Star b => HS b (seq b)
  | Plus b => HP b (seq b)
  | Alt bs => HA bs ((fix alts l : Forall (Forall P) l :=
      match l with [] => Forall_nil _ | b :: l' => Forall_cons _ (seq b) (alts l') end) bs)
  end.
End SymInd.

(* ---------- equality ---------- *)
Definition eq_sound (s : sym) : Prop := forall s', sym_eqb s s' = true -> s = s'.
Lemma seq_eqb_sound b : Forall eq_sound b -> forall b', seq_eqb b b' = true -> b = b'.
Proof.
  induction 1 as [|s b H _ IH]; intros [|s' b'] E; try discriminate; [reflexivity|].
  cbn in E. destruct (sym_eqb s s') eqn:Es; [|discriminate]. f_equal; auto.
Qed.
Lemma sym_eqb_sound s : eq_sound s.
Proof.
  induction s using sym_all; intros [ks0|q0|b0|b0|b0|bs0] E; try discriminate; cbn in E.
  - destruct (list_eq_dec Z.eq_dec ks ks0); [congruence|discriminate].
  - apply Nat.eqb_eq in E. congruence.
  - f_equal. now apply seq_eqb_sound.
  - f_equal. now apply seq_eqb_sound.
  - f_equal. now apply seq_eqb_sound.
  - f_equal. revert bs0 E. induction H as [|b bs Hb _ IH]; intros [|b' bs'] E; try discriminate; [reflexivity|].
    match type of E with (if ?x then _ else _) = true => destruct x eqn:Ex; [|discriminate] end.
    f_equal; [now apply seq_eqb_sound|auto].
Qed.
Lemma config_eqb_sound a b : config_eqb a b = true -> a = b.
Proof.
  destruct a as [i l], b as [j m]. unfold config_eqb. cbn. destruct (Nat.eqb i j) eqn:E; [|discriminate].
  apply Nat.eqb_eq in E. intros H. apply seq_eqb_sound in H; [congruence|].
  clear. induction l; constructor; auto. apply sym_eqb_sound.
Qed.
Lemma has_In c l : has c l = true -> In c l.
Proof. unfold has. rewrite existsb_exists. intros (x & A & B). apply config_eqb_sound in B. now subst. Qed.
Lemma no_dups_In c l : In c (no_dups l) <-> In c l.
Proof.
  revert c. induction l as [|d l IH]; intros c; [reflexivity|]. cbn. destruct (has d (no_dups l)) eqn:E.
  - apply has_In, IH in E. rewrite IH. intuition (subst; auto).
  - cbn. rewrite IH. reflexivity.
Qed.

(* ---------- closure ---------- *)
Definition heads : list sym -> list (list sym) * bool := heads_seq (heads_rule depth).
Lemma heads_rule_S n q : heads_rule (S n) q = heads_seq (heads_rule n) (rhs q).
Proof. reflexivity. Qed.
Lemma heads_seq_nil F : heads_seq F [] = ([], true).
Proof. reflexivity. Qed.
Lemma heads_rule_fix q : heads_rule depth q = heads (rhs q).
Proof.
  unfold heads. destruct (Nat.lt_ge_cases q 53) as [L|G].
  - assert (E : map (heads_rule depth) (seq 0 53) = map (fun q => heads_seq (heads_rule depth) (rhs q)) (seq 0 53))
      by (vm_compute; reflexivity).
    apply (f_equal (fun l => nth q l (heads_rule depth 0))) in E.
    rewrite (map_nth (heads_rule depth)), seq_nth in E by exact L. cbn [Nat.add] in E. rewrite E.
    rewrite (nth_indep _ _ (heads_seq (heads_rule depth) (rhs 0))) by (now rewrite map_length, seq_length).
    rewrite (map_nth (fun q => heads_seq (heads_rule depth) (rhs q))), seq_nth by exact L. reflexivity.
  - assert (R : rhs q = []).
    { replace q with (53 + (q - 53))%nat by lia. unfold rhs. rewrite body_beyond. reflexivity. }
    rewrite R. change depth with (S 15). rewrite heads_rule_S, R, !heads_seq_nil. reflexivity.
Qed.
Section Sound.
Variable H : nat -> list (list sym) * bool.
Definition sound_at (s : sym) (x : list (list sym) * bool) : Prop :=
  (forall c m w, In c (fst x) -> viable (c ++ m) w -> viable (s :: m) w) /\
  (forall m w, snd x = true -> viable m w -> viable (s :: m) w).
Definition sound_seq (b : list sym) (x : list (list sym) * bool) : Prop :=
  (forall c m w, In c (fst x) -> viable (c ++ m) w -> viable (b ++ m) w) /\
  (forall m w, snd x = true -> viable m w -> viable (b ++ m) w).
Hypothesis HR : forall q, sound_at (N q) (H q).
Lemma viable_cons s l l' : (forall w, viable l w -> viable l' w) -> forall w, viable (s :: l) w -> viable (s :: l') w.
Proof.
  intros A w [f D]. destruct (derives_split _ _ _ D [s] l eq_refl) as (w1 & w2 & f1 & f2 & -> & _ & D1 & D2).
  destruct (A w2) as [f' D']; [eexists; exact D2|]. eexists. exact (derives_app _ _ _ D1 _ _ _ D').
Qed.
Lemma seq_sound b : Forall (fun s => sound_at s (heads_sym H s)) b -> sound_seq b (heads_seq H b).
Proof.
  induction 1 as [|s b [A1 A2] _ [B1 B2]].
  - split; cbn; [easy|auto].
  - cbn [heads_seq]. destruct (heads_sym H s) as [a e]. cbn in A1, A2.
    assert (Bf : forall c m w, In c (before a b) -> viable (c ++ m) w -> viable ((s :: b) ++ m) w).
    { intros c m w I V. unfold before in I. apply in_map_iff in I. destruct I as (c0 & <- & I).
      rewrite <- app_assoc in V. cbn [app]. now apply (A1 c0). }
    destruct e; split; cbn; try easy.
    + intros c m w I V. apply in_app_or in I. destruct I as [I|I]; [now apply (Bf c)|].
      apply A2; [reflexivity|]. now apply (B1 c).
    + intros m w E V. apply A2; auto.
Qed.
Lemma sym_sound s : sound_at s (heads_sym H s).
Proof.
  induction s using sym_all; cbn [heads_sym].
  - split; cbn; [|easy]. intros c m w [<-|[]] V. exact V.
  - apply HR.
  - apply seq_sound in H0. destruct H0 as [A B]. split; cbn [fst snd].
    + intros c m w I V. apply viable_opt. left. now apply (A c).
    + intros m w _ V. apply viable_opt. auto.
  - apply seq_sound in H0. destruct H0 as [A B]. split; cbn [fst snd].
    + intros c m w I V. apply in_map_iff in I. destruct I as (c0 & <- & I). rewrite <- app_assoc in V.
      apply viable_star. left. now apply (A c0).
    + intros m w _ V. apply viable_star. auto.
  - apply seq_sound in H0. destruct H0 as [A B]. split; cbn [fst snd].
    + intros c m w I V. apply in_map_iff in I. destruct I as (c0 & <- & I). rewrite <- app_assoc in V.
      apply viable_plus. now apply (A c0).
    + intros m w E V. apply viable_plus. apply B; [exact E|]. apply viable_star. auto.
  - assert (G : forall bs0, incl bs0 bs ->
       (forall c m w, In c (fst (fold_right (fun b => hunion (heads_seq H b)) ([], false) bs0)) -> viable (c ++ m) w -> viable (Alt bs :: m) w) /\
       (forall m w, snd (fold_right (fun b => hunion (heads_seq H b)) ([], false) bs0) = true -> viable m w -> viable (Alt bs :: m) w)).
    { intros bs0. induction bs0 as [|b bs0 IH]; intros I.
      - split; cbn; easy.
      - destruct IH as [A B]; [intros x Hx; apply I; now right|].
        assert (Ib : In b bs) by (apply I; now left).
        rewrite Forall_forall in H0. destruct (seq_sound _ (H0 _ Ib)) as [A1 B1].
        cbn [fold_right]. unfold hunion. split; cbn [fst snd].
        + intros c m w J V. apply in_app_or in J. destruct J as [J|J]; [|now apply (A c)].
          apply viable_alt. exists b. split; [exact Ib|]. now apply (A1 c).
        + intros m w E V. apply orb_true_iff in E. destruct E as [E|E]; [|now apply B].
          apply viable_alt. exists b. auto. }
    exact (G bs (incl_refl bs)).
Qed.
End Sound.
Lemma rule_sound n : forall q, sound_at (N q) (heads_rule n q).
Proof.
  induction n as [|n IH]; intros q.
  - split; cbn; easy.
  - rewrite heads_rule_S.
    destruct (seq_sound (heads_rule n) (rhs q)) as [A B].
    { apply Forall_forall. intros s _. now apply sym_sound. }
    split.
    + intros c m w I V. apply viable_call. rewrite <- rhs_rule. now apply (A c).
    + intros m w E V. apply viable_call. rewrite <- rhs_rule. now apply B.
Qed.
Lemma heads_sound l : sound_seq l (heads l).
Proof.
  apply seq_sound. apply Forall_forall. intros s _. apply sym_sound. apply rule_sound.
Qed.
Lemma closure_sound l c w : In c (closure l) -> viable c w -> viable l w.
Proof.
  unfold closure. destruct (heads_sound l) as [A B]. unfold heads in A, B.
  destruct (heads_seq (heads_rule depth) l) as [hs e]. cbn in A, B. intros I V.
  apply in_app_or in I. rewrite <- (app_nil_r l). destruct I as [I|I].
  - apply (A c); [exact I|]. now rewrite app_nil_r.
  - destruct e; [|easy]. destruct I as [<-|[]]. now apply B.
Qed.

Local Opaque rule rhs body heads_rule.
Lemma before_app a b l : before (before a b) l = before a (b ++ l).
Proof. unfold before. rewrite map_map. apply map_ext. intros c. now rewrite app_assoc. Qed.
Lemma heads_cons s l : heads (s :: l) =
  let (a, e) := heads_sym (heads_rule depth) s in
  if e then hunion' (before a l) (heads l) else (before a l, false).
Proof. reflexivity. Qed.
Lemma heads_app b l : heads (b ++ l) =
  if snd (heads b) then hunion' (before (fst (heads b)) l) (heads l) else (before (fst (heads b)) l, false).
Proof.
  induction b as [|s b IH].
  - cbn. unfold hunion'. cbn. destruct (heads l); reflexivity.
  - cbn [app]. rewrite !heads_cons. destruct (heads_sym _ s) as [a e]. destruct e.
    + rewrite IH. unfold hunion'. destruct (heads b) as [a' e']. cbn [fst snd].
      assert (E : before (before a b ++ a') l = before a (b ++ l) ++ before a' l).
      { unfold before at 1. rewrite map_app. f_equal. apply before_app. }
      destruct e'; cbn [fst snd]; rewrite E, ?app_assoc; reflexivity.
    + cbn [fst snd]. now rewrite before_app.
Qed.
Definition reaches (x : list (list sym) * bool) (w : list tok) : Prop :=
  match w with
  | [] => snd x = true
  | y :: w' => exists ks l', In (T ks :: l') (fst x) /\ In (t_kind y) ks /\ viable l' w'
  end.
Lemma reaches_weaken x y w : incl (fst x) (fst y) -> (snd x = true -> snd y = true) -> reaches x w -> reaches y w.
Proof. intros A B. destruct w; cbn; [exact B|]. intros (ks & l' & I & K & V). exists ks, l'. auto. Qed.
Lemma heads_alt_in b bs : In b bs ->
  incl (fst (heads b)) (fst (heads_sym (heads_rule depth) (Alt bs))) /\
  (snd (heads b) = true -> snd (heads_sym (heads_rule depth) (Alt bs)) = true).
Proof.
  change (heads_sym (heads_rule depth) (Alt bs)) with (fold_right (fun b => hunion (heads b)) ([], false) bs).
  induction bs as [|c bs IH]; [easy|]. cbn [fold_right]. unfold hunion at 1 3. cbn [fst snd]. intros [->|H].
  - split; [apply incl_appl, incl_refl|]. intros ->. reflexivity.
  - destruct (IH H) as [A B]. split; [now apply incl_appr|]. intros E. rewrite (B E). apply orb_true_r.
Qed.
Lemma before_incl a a' l : incl a a' -> incl (before a l) (before a' l).
Proof. unfold before. apply incl_map. Qed.
Local Opaque heads.
Lemma derives_heads l w f : derives l w f -> reaches (heads l) w.
Proof.
  induction 1.
  - reflexivity.
  - rewrite heads_cons. cbn. exists ks, l. repeat split; auto. now exists f.
  - rewrite heads_cons. change (heads_sym (heads_rule depth) (N r)) with (heads_rule depth r).
    rewrite heads_rule_fix, rhs_rule. destruct w1 as [|x w1]; cbn [app].
    + cbn in IHderives1. rewrite (surjective_pairing (heads (rule r))), IHderives1.
      revert IHderives2. apply reaches_weaken; unfold hunion'; cbn; auto. now apply incl_appr, incl_refl.
    + destruct IHderives1 as (ks & l' & I & J & [f' V]).
      assert (G : reaches (before (fst (heads (rule r))) l, false) (x :: w1 ++ w2)).
      { exists ks, (l' ++ l). split; [|split; [exact J|]].
        - unfold before. apply in_map_iff. exists (T ks :: l'). auto.
        - eexists. eapply derives_app; eassumption. }
      revert G. apply reaches_weaken; destruct (heads (rule r)) as [a e]; cbn; [|discriminate].
      destruct e; unfold hunion'; cbn; [now apply incl_appl, incl_refl|apply incl_refl].
  - revert IHderives. rewrite heads_cons. apply reaches_weaken; unfold hunion'; cbn; auto. now apply incl_appr, incl_refl.
  - revert IHderives. rewrite heads_cons, heads_app.
    change (heads_sym (heads_rule depth) (Opt b)) with (fst (heads b), true).
    apply reaches_weaken; unfold hunion'; destruct (heads b) as [a e]; cbn; destruct e; cbn; auto using incl_refl.
    + now apply incl_appl, incl_refl.
    + discriminate.
  - revert IHderives. rewrite heads_cons. apply reaches_weaken; unfold hunion'; cbn; auto. now apply incl_appr, incl_refl.
  - revert IHderives. rewrite heads_app, !heads_cons.
    change (heads_sym (heads_rule depth) (Star b)) with (before (fst (heads b)) [Star b], true).
    cbv iota beta. rewrite before_app. cbn [app].
    apply reaches_weaken; unfold hunion'; destruct (heads b) as [a e]; cbn; destruct e; cbn; auto using incl_refl.
    + apply incl_app; [now apply incl_appl, incl_refl|apply incl_refl].
    + now apply incl_appl, incl_refl.
    + discriminate.
  - revert IHderives. rewrite heads_app, !heads_cons.
    change (heads_sym (heads_rule depth) (Star b)) with (before (fst (heads b)) [Star b], true).
    change (heads_sym (heads_rule depth) (Plus b)) with (before (fst (heads b)) [Star b], snd (heads b)).
    cbv iota beta. rewrite before_app. cbn [app].
    apply reaches_weaken; unfold hunion'; destruct (heads b) as [a e]; cbn; destruct e; cbn; auto using incl_refl.
    apply incl_app; [now apply incl_appl, incl_refl|apply incl_refl].
  - destruct (heads_alt_in _ _ H) as [A B]. revert IHderives. rewrite heads_app, heads_cons. revert A B.
    destruct (heads_sym _ (Alt bs)) as [a e]; destruct (heads b) as [a' e']; cbn; intros A B.
    apply reaches_weaken.
    + destruct e'; cbn.
      * rewrite B by reflexivity. cbn. apply incl_app; [now apply incl_appl, before_incl|now apply incl_appr, incl_refl].
      * destruct e; cbn; [now apply incl_appl, before_incl|now apply before_incl].
    + destruct e'; cbn; [|discriminate]. rewrite B by reflexivity. auto.
Qed.
(** a configuration is at its end, or begins with the next token *)
Lemma closure_complete l w : viable l w -> exists c, In c (closure l) /\
  match w with
  | [] => c = []
  | x :: w' => exists ks c', c = T ks :: c' /\ In (t_kind x) ks /\ viable c' w'
  end.
Proof.
  intros [f D]. apply derives_heads in D. unfold closure. change (heads_seq (heads_rule depth) l) with (heads l).
  destruct (heads l) as [hs e]. destruct w as [|x w]; cbn in D.
  - subst e. exists []. split; [|reflexivity]. apply in_or_app. right. now left.
  - destruct D as (ks & l' & I & J & V). exists (T ks :: l'). split; [apply in_or_app; now left|]. eauto.
Qed.

(** nothing else is in a closure *)
Section Shape.
Variable H : nat -> list (list sym) * bool.
Definition at_token (x : list (list sym) * bool) : Prop :=
  forall c, In c (fst x) -> match c with T _ :: _ => True | _ => False end.
Hypothesis HR : forall q, at_token (H q).
Lemma before_shape a l : (forall c : list sym, In c a -> match c with T _ :: _ => True | _ => False end) ->
  forall c, In c (before a l) -> match c with T _ :: _ => True | _ => False end.
Proof.
  intros A c I. unfold before in I. apply in_map_iff in I. destruct I as (c0 & <- & I). specialize (A _ I).
  destruct c0 as [|[] c0]; easy.
Qed.
Lemma seq_shape b : Forall (fun s => at_token (heads_sym H s)) b -> at_token (heads_seq H b).
Proof.
  induction 1 as [|s b A _ B]; [easy|]. cbn [heads_seq]. unfold at_token in A. destruct (heads_sym H s) as [a e].
  intros c I. destruct e; cbn in I; [|revert c I; now apply before_shape].
  apply in_app_or in I. destruct I as [I|I]; [|now apply B]. revert c I. now apply before_shape.
Qed.
Lemma sym_shape s : at_token (heads_sym H s).
Proof.
  induction s using sym_all; cbn [heads_sym].
  - intros c [<-|[]]. exact Logic.I.
  - apply HR.
  - now apply seq_shape in H0.
  - apply seq_shape in H0. intros c. now apply (before_shape _ [Star b] H0).
  - apply seq_shape in H0. intros c. now apply (before_shape _ [Star b] H0).
  - induction H0 as [|b bs Hb _ IH]; [easy|]. cbn [fold_right]. intros c J. unfold hunion in J. cbn [fst] in J.
    apply in_app_or in J. destruct J as [J|J]; [|now apply IH]. revert J. now apply seq_shape.
Qed.
End Shape.
Lemma rule_shape n : forall q, at_token (heads_rule n q).
Proof.
  induction n as [|n IH]; intros q; [easy|]. rewrite heads_rule_S. apply seq_shape, Forall_forall.
  intros s _. now apply sym_shape.
Qed.
Lemma closure_shape l c : In c (closure l) -> match c with [] | T _ :: _ => True | _ => False end.
Proof.
  unfold closure. assert (A : at_token (heads_seq (heads_rule depth) l)).
  { apply seq_shape, Forall_forall. intros s _. apply sym_shape, rule_shape. }
  unfold at_token in A. destruct (heads_seq (heads_rule depth) l) as [hs e]. intros I. apply in_app_or in I.
  destruct I as [I|I].
  - specialize (A _ I). destruct c as [|[]]; easy.
  - destruct e; [|easy]. destruct I as [<-|[]]. exact Logic.I.
Qed.

(* ---------- the prediction ---------- *)
Lemma combine_seq_nth {A} (l : list A) i x : forall s, In (i, x) (combine (seq s (length l)) l) ->
  exists j, i = (s + j)%nat /\ nth_error l j = Some x.
Proof.
  induction l as [|y l IH]; intros s; [easy|]. cbn [length seq combine]. intros [[= <- <-]|I].
  - exists O. split; [lia|reflexivity].
  - destruct (IH _ I) as (j & -> & E). exists (S j). split; [lia|exact E].
Qed.
Lemma in_start i c alts : In (i, c) (start alts) <-> exists l, nth_error alts i = Some l /\ In c (closure l).
Proof.
  unfold start. rewrite no_dups_In, in_concat. split.
  - intros (cs & I & J). apply in_map_iff in I. destruct I as ([k l] & <- & I). cbn in J.
    apply in_map_iff in J. destruct J as (c0 & [= <- <-] & J).
    destruct (combine_seq_nth _ _ _ _ I) as (j & -> & E). eauto.
  - intros (l & E & J). exists (map (pair i) (closure l)). split; [|now apply in_map].
    apply in_map_iff. exists (i, l). split; [reflexivity|]. exact (in_combine_seq _ _ _ E 0).
Qed.
Lemma in_reach i c t cs : In (i, c) (reach t cs) <->
  (exists ks l, In (i, T ks :: l) cs /\ In t ks /\ In c (closure l)) /\ (t = EOF -> c = []).
Proof.
  unfold reach. rewrite no_dups_In, filter_In, in_concat. cbn [snd]. split.
  - intros [(xs & I & J) E]. split.
    + apply in_map_iff in I. destruct I as ([k l] & <- & I). cbn in J.
      destruct l as [|[ks| | | | |] l]; try easy. destruct (mem t ks) eqn:M; [|easy]. apply mem_In in M.
      apply in_map_iff in J. destruct J as (c0 & [= <- <-] & J). exists ks, l. auto.
    + intros ->. rewrite Z.eqb_refl in E. destruct c; [reflexivity|discriminate].
  - intros [(ks & l & I & M & J) E]. split.
    + exists (map (pair i) (closure l)). split; [|now apply in_map].
      apply in_map_iff. exists (i, T ks :: l). split; [|exact I]. cbn. apply mem_In in M. now rewrite M.
    + destruct (t =? EOF) eqn:Et; [|reflexivity]. apply Z.eqb_eq in Et. now rewrite (E Et).
Qed.
(** which alternatives are viable, seen from the configurations *)
Definition live (cs : list config) (w : list tok) (i : nat) : Prop := exists c, In (i, c) cs /\ viable c w.
Definition least_live (cs : list config) (w : list tok) (answer : option nat) : Prop :=
  (exists i, live cs w i) -> exists m, answer = Some m /\ live cs w m /\ forall i, (i < m)%nat -> ~ live cs w i.
Lemma least_le cs c : In c cs -> (least cs <= fst c)%nat.
Proof.
  unfold least. generalize (match cs with c :: _ => fst c | [] => 0%nat end). intros z.
  induction cs as [|d cs IH]; [easy|]. intros [->|I]; cbn; [lia|]. specialize (IH I). lia.
Qed.
Lemma least_in cs : cs <> [] -> exists c, In (least cs, c) cs.
Proof.
  destruct cs as [|c0 cs0]; [easy|]. intros _. unfold least.
  assert (G : forall z cs, In z (map fst (c0 :: cs0)) -> incl cs (c0 :: cs0) ->
     In (fold_right (fun c m => Nat.min (fst c) m) z cs) (map fst (c0 :: cs0))).
  { intros z cs Iz. induction cs as [|d cs IH]; intros I; cbn [fold_right]; [exact Iz|].
    assert (Id : In (fst d) (map fst (c0 :: cs0))) by (apply in_map, I; now left).
    assert (Ir := IH (fun x Hx => I x (or_intror Hx))).
    destruct (Nat.min_spec (fst d) (fold_right (fun c m => Nat.min (fst c) m) z cs)) as [[_ ->]|[_ ->]]; auto. }
  specialize (G (fst c0) (c0 :: cs0) (or_introl eq_refl) (incl_refl _)).
  apply in_map_iff in G. destruct G as ([i c] & E & I). change (fst (i, c)) with i in E. subst i. exists c. exact I.
Qed.
(** the alternatives that are live do not change *)
Lemma live_reach cs x w : (forall i c, In (i, c) cs -> match c with [] | T _ :: _ => True | _ => False end) -> eof_last (x :: w) ->
  forall j, live cs (x :: w) j <-> live (reach (t_kind x) cs) w j.
Proof.
  intros Sh EL j. split.
      - intros (d & J & [f D]). specialize (Sh _ _ J). destruct d as [|[] d]; try easy.
        inversion D; subst. assert (Vd : viable d w) by (eexists; eassumption).
        destruct (closure_complete _ _ Vd) as (e & Ie & Me). exists e. split.
        + apply in_reach. split; [eauto|]. intros Ek. specialize (EL [] x w eq_refl Ek). now subst w.
        + destruct w as [|y w]; [subst e; exists []; constructor|].
          destruct Me as (ks' & c' & -> & A & [f' B]). eexists. constructor; eassumption.
      - intros (d & J & Vd). apply in_reach in J. destruct J as [(ks & l & J & M & C) _].
        exists (T ks :: l). split; [exact J|]. destruct (closure_sound _ _ _ C Vd) as [f D].
        eexists. constructor; eassumption.
Qed.
Lemma exec_full_right w : forall cs,
  (* configurations are at their end or begin with a token *)
  (forall i c, In (i, c) cs -> match c with [] | T _ :: _ => True | _ => False end) ->
  eof_last w -> least_live cs w (exec_full cs w).
Proof.
  induction w as [|x w IH]; intros cs Sh EL (i & c & I & V); cbn [exec_full].
  - set (cs' := filter (fun c : nat * list sym => match snd c with [] => true | _ => false end) cs).
    assert (E0 : forall j d, In (j, d) cs -> viable d [] -> In (j, d) cs' /\ d = []).
    { intros j d J [f D]. specialize (Sh _ _ J). destruct d as [|[] d]; try easy.
      split; auto. apply filter_In. auto. }
    assert (Ne : cs' <> []). { intros E. destruct (E0 _ _ I V) as [J _]. rewrite E in J. easy. }
    destruct cs' as [|c1 cs1] eqn:Ec; [easy|]. rewrite <- Ec in *.
    exists (least cs'). split; [reflexivity|]. split.
    + destruct (least_in cs' Ne) as [d J]. exists d. unfold cs' in J at 2. apply filter_In in J.
      destruct J as [J Jd]. split; [exact J|]. cbn in Jd. destruct d; [|discriminate]. exists []. constructor.
    + intros j L (d & J & Vd). destruct (E0 _ _ J Vd) as [J' _]. apply least_le in J'. cbn in J'. lia.
  - set (cs' := reach (t_kind x) cs).
    assert (Lv : forall j, live cs (x :: w) j <-> live cs' w j) by (intros j; now apply live_reach).
    assert (Sh' : forall j d, In (j, d) cs' -> match d with [] | T _ :: _ => True | _ => False end).
    { intros j d J. apply in_reach in J. destruct J as [(ks & l & _ & _ & C) _].
      revert C. apply closure_shape. }
    assert (L : live cs' w i) by (apply Lv; exists c; auto).
    assert (Ne : cs' <> []). { destruct L as (d & J & _). intros E. rewrite E in J. easy. }
    assert (G : least_live cs' w (match resolve cs' with Some m => Some m | None => exec_full cs' w end)).
    { intros _. unfold resolve.
      destruct (forallb (fun c => has (least cs', snd c) cs') cs') eqn:Fa.
      - exists (least cs'). split; [reflexivity|]. split.
        + destruct L as (d & J & Vd). rewrite forallb_forall in Fa. specialize (Fa _ J). apply has_In in Fa.
          exists d. auto.
        + intros j Lj (d & J & _). apply least_le in J. cbn in J. lia.
      - apply IH; [exact Sh'|now apply (eof_last_app [x]) in EL|eauto]. }
    destruct (G (ex_intro _ _ L)) as (m & A & B & C).
    exists m. split; [|split; [now apply Lv|]].
    + destruct cs' as [|c1 cs1]; [easy|]. exact A.
    + intros j Lj H. apply (C j Lj), Lv, H.
Qed.

Lemma start_right alts w answer : least_live (start alts) w answer -> right_prediction alts w answer.
Proof.
  intros H (l & Il & V).
  assert (Lv : forall i, live (start alts) w i <-> exists l, nth_error alts i = Some l /\ viable l w).
  { intros i. split.
    - intros (c & I & Vc). apply in_start in I. destruct I as (m & E & C). exists m. split; [exact E|].
      eapply closure_sound; eassumption.
    - intros (m & E & Vm). destruct (closure_complete _ _ Vm) as (c & C & Mc). exists c. split.
      + apply in_start. eauto.
      + destruct w as [|x w]; [subst c; exists []; constructor|].
        destruct Mc as (ks & c' & -> & A & [f B]). eexists. constructor; eassumption. }
  destruct (In_nth_error _ _ Il) as [i Ei].
  destruct H as (m & A & B & C).
  - exists i. apply Lv. eauto.
  - apply Lv in B. destruct B as (lm & E & Vm). exists m, lm. repeat split; auto.
    intros j l' Lj Ej Vj. apply (C j Lj), Lv. eauto.
Qed.
Theorem predict_right : right predict.
Proof.
  intros d alts w EL. apply start_right, exec_full_right; [|exact EL].
  intros j c J. apply in_start in J. destruct J as (m & _ & Cm). revert Cm. apply closure_shape.
Qed.
