(** Proofs about the parser (Parser.v) and the grammar (ParserSpec.v): what the parser
    accepts is derived, it ends, and it accepts everything that can be derived. *)
From Coq Require Import List ZArith Bool Arith Lia.
From Verif Require Import ParserNames Parser ParserSpec.
Import ListNotations.
Open Scope Z_scope.

(* ---------- derivations ---------- *)
Lemma derives_app l w f : derives l w f -> forall m w' f', derives m w' f' ->
  derives (l ++ m) (w ++ w') (f ++ f').
Proof.
  induction 1; intros m w' f' D; cbn; auto.
  - constructor; auto.
  - rewrite <- app_assoc. constructor; auto.
  - apply d_opt_no; auto.
  - apply d_opt. rewrite app_assoc. auto.
  - apply d_star_end; auto.
  - apply d_star. specialize (IHderives _ _ _ D). rewrite <- app_assoc in IHderives. exact IHderives.
  - apply d_plus. specialize (IHderives _ _ _ D). rewrite <- app_assoc in IHderives. exact IHderives.
  - eapply d_alt; [eassumption|]. rewrite app_assoc. auto.
Qed.
Lemma derives_split lm w f : derives lm w f -> forall l m, lm = l ++ m ->
  exists w1 w2 f1 f2, w = w1 ++ w2 /\ f = f1 ++ f2 /\ derives l w1 f1 /\ derives m w2 f2.
Proof.
  induction 1; intros l0 m E.
  - symmetry in E. apply app_eq_nil in E. destruct E as [-> ->].
    exists [], [], [], []. repeat split; constructor.
  - destruct l0 as [|s l0]; cbn in E.
    + subst m. exists [], (x :: w), [], (Leaf x :: f). repeat split; [constructor|eapply d_tok; eauto].
    + injection E as <- E. destruct (IHderives _ _ E) as (w1 & w2 & f1 & f2 & -> & -> & A & B).
      exists (x :: w1), w2, (Leaf x :: f1), f2. repeat split; auto. constructor; auto.
  - destruct l0 as [|s l0]; cbn in E.
    + subst m. exists [], (w1 ++ w2), [], (Node r f1 :: f2). repeat split; [constructor|eapply d_rule; eauto].
    + injection E as <- E. destruct (IHderives2 _ _ E) as (v1 & v2 & g1 & g2 & -> & -> & A & B).
      exists (w1 ++ v1), v2, (Node r f1 :: g1), g2. rewrite app_assoc. repeat split; auto.
      constructor; auto.
  - destruct l0 as [|s l0]; cbn in E.
    + subst m. exists [], w, [], f. repeat split; [constructor|eapply d_opt_no; eauto].
    + injection E as <- E. destruct (IHderives _ _ E) as (v1 & v2 & g1 & g2 & -> & -> & A & B).
      exists v1, v2, g1, g2. repeat split; auto. constructor; auto.
  - destruct l0 as [|s l0]; cbn in E.
    + subst m. exists [], w, [], f. repeat split; [constructor|eapply d_opt; eauto].
    + injection E as <- ->. destruct (IHderives (b ++ l0) m) as (v1 & v2 & g1 & g2 & -> & -> & A & B).
      { now rewrite app_assoc. }
      exists v1, v2, g1, g2. repeat split; auto. apply d_opt; auto.
  - destruct l0 as [|s l0]; cbn in E.
    + subst m. exists [], w, [], f. repeat split; [constructor|eapply d_star_end; eauto].
    + injection E as <- E. destruct (IHderives _ _ E) as (v1 & v2 & g1 & g2 & -> & -> & A & B).
      exists v1, v2, g1, g2. repeat split; auto. constructor; auto.
  - destruct l0 as [|s l0]; cbn in E.
    + subst m. exists [], w, [], f. repeat split; [constructor|eapply d_star; eauto].
    + injection E as <- ->. destruct (IHderives (b ++ Star b :: l0) m) as (v1 & v2 & g1 & g2 & -> & -> & A & B).
      { now rewrite <- app_assoc. }
      exists v1, v2, g1, g2. repeat split; auto. apply d_star; auto.
  - destruct l0 as [|s l0]; cbn in E.
    + subst m. exists [], w, [], f. repeat split; [constructor|eapply d_plus; eauto].
    + injection E as <- ->. destruct (IHderives (b ++ Star b :: l0) m) as (v1 & v2 & g1 & g2 & -> & -> & A & B).
      { now rewrite <- app_assoc. }
      exists v1, v2, g1, g2. repeat split; auto. apply d_plus; auto.
  - destruct l0 as [|s l0]; cbn in E.
    + subst m. exists [], w, [], f. repeat split; [constructor|eapply d_alt; eauto].
    + injection E as <- ->. destruct (IHderives (b ++ l0) m) as (v1 & v2 & g1 & g2 & -> & -> & A & B).
      { now rewrite app_assoc. }
      exists v1, v2, g1, g2. repeat split; auto. eapply d_alt; eauto.
Qed.

(** The functions of the parser follow the rules of the grammar *)
Lemma rhs_rules : map rhs (seq 0 53) = grammar.
Proof. vm_compute. reflexivity. Qed.
Lemma body_beyond q : body (53 + q) = [].
Proof. reflexivity. Qed.
Lemma rhs_rule q : rhs q = rule q.
Proof.
  unfold rule. rewrite <- rhs_rules. destruct (Nat.lt_ge_cases q 53) as [L|G].
  - rewrite (nth_indep _ [] (rhs 0)) by (now rewrite map_length, seq_length).
    rewrite map_nth, seq_nth by exact L. reflexivity.
  - rewrite nth_overflow by (now rewrite map_length, seq_length).
    replace q with (53 + (q - 53))%nat by lia. unfold rhs. rewrite body_beyond. reflexivity.
Qed.

Lemma mem_In x l : mem x l = true <-> In x l.
Proof.
  unfold mem. rewrite existsb_exists. split.
  - intros (y & A & B). apply Z.eqb_eq in B. now subst.
  - intros A. exists x. split; auto. apply Z.eqb_refl.
Qed.

(* ---------- what the parser accepts is derived ---------- *)
Section Sound.
Variable o : oracle.
Lemma andthen_ok x g f rest : andthen x g = OK f rest ->
  exists f1 r1, x = OK f1 r1 /\ g f1 r1 = OK f rest.
Proof. destruct x; cbn; try discriminate. eauto. Qed.
Lemma find_case_in t cs b : find_case t cs = Some b -> exists ts, In (ts, b) cs /\ In t ts.
Proof.
  induction cs as [|[ts c] cs IH]; cbn; [discriminate|]. destruct (mem t ts) eqn:M.
  - intros [= ->]. apply mem_In in M. eauto.
  - intros E. destruct (IH E) as (ts' & A & B). eauto.
Qed.
Lemma exec_sound n : forall cs r k inp f rest, exec o n cs r k inp = OK f rest ->
  exists w, inp = w ++ rest /\ derives (map erase cs) w f.
Proof.
  induction n as [|n IH]; intros cs r k inp f rest E; [discriminate|].
  destruct cs as [|c cs]; cbn [exec] in E.
  { injection E as <- <-. exists []. split; [reflexivity|constructor]. }
  assert (B : forall b r' next,
    andthen (exec o n b r' k inp) (fun f1 inp1 =>
      andthen (exec o n next r k inp1) (fun f2 inp2 => OK (f1 ++ f2) inp2)) = OK f rest ->
    exists w, inp = w ++ rest /\ derives (map erase b ++ map erase next) w f).
  { intros b r' next H. apply andthen_ok in H. destruct H as (f1 & r1 & A & H).
    apply andthen_ok in H. destruct H as (f2 & r2 & A2 & H). injection H as <- <-.
    destruct (IH _ _ _ _ _ _ A) as (w1 & -> & D1). destruct (IH _ _ _ _ _ _ A2) as (w2 & -> & D2).
    exists (w1 ++ w2). split; [apply app_assoc|]. now apply derives_app. }
  assert (M : forall ts,
    match inp with
    | t :: inp' => if mem (t_kind t) ts
        then andthen (exec o n cs r k inp') (fun f inp2 => OK (Leaf t :: f) inp2) else Err
    | [] => Err
    end = OK f rest ->
    exists w, inp = w ++ rest /\ derives (T ts :: map erase cs) w f).
  { intros ts H. destruct inp as [|t inp]; [discriminate|].
    destruct (mem (t_kind t) ts) eqn:Mt; [|discriminate].
    apply andthen_ok in H. destruct H as (f1 & r1 & A & H). injection H as <- <-.
    destruct (IH _ _ _ _ _ _ A) as (w & -> & D). exists (t :: w). split; [reflexivity|].
    constructor; auto. now apply mem_In. }
  destruct c; cbn [map erase].
  - now apply M.
  - now apply M.
  - apply andthen_ok in E. destruct E as (f1 & r1 & A & H).
    apply andthen_ok in H. destruct H as (f2 & r2 & A2 & H). injection H as <- <-.
    destruct (IH _ _ _ _ _ _ A) as (w1 & -> & D1). destruct (IH _ _ _ _ _ _ A2) as (w2 & -> & D2).
    exists (w1 ++ w2). split; [apply app_assoc|]. constructor; auto. rewrite <- rhs_rule. exact D1.
  - destruct (sync _ _); [|discriminate]. destruct (mem (la inp) ts).
    + destruct (B _ _ _ E) as (w & -> & D). exists w. split; auto. apply d_opt. exact D.
    + destruct (IH _ _ _ _ _ _ E) as (w & -> & D). exists w. split; auto. now apply d_opt_no.
  - destruct (sync _ _); [|discriminate]. destruct (mem (la inp) ts).
    + destruct (B _ _ _ E) as (w & -> & D). exists w. split; auto. apply d_star. exact D.
    + destruct (IH _ _ _ _ _ _ E) as (w & -> & D). exists w. split; auto. now apply d_star_end.
  - destruct (sync _ _); [|discriminate].
    destruct (B _ _ _ E) as (w & -> & D). exists w. split; auto. apply d_plus. exact D.
  - destruct (sync _ _); [|discriminate]. destruct (find_case (la inp) cases) as [b|] eqn:F; [|discriminate].
    destruct (find_case_in _ _ _ F) as (ts & I1 & _).
    destruct (B _ _ _ E) as (w & -> & D). exists w. split; auto. eapply d_alt; [|exact D].
    apply in_map_iff. exists (ts, b). split; auto.
  - destruct (sync _ _); [|discriminate]. destruct (o _ _ _) as [[|m]|]; [| |discriminate].
    + destruct (B _ _ _ E) as (w & -> & D). exists w. split; auto. apply d_opt. exact D.
    + destruct (IH _ _ _ _ _ _ E) as (w & -> & D). exists w. split; auto. now apply d_opt_no.
  - destruct (sync _ _); [|discriminate]. destruct (o _ _ _) as [[|m]|]; [| |discriminate].
    + destruct (B _ _ _ E) as (w & -> & D). exists w. split; auto. apply d_star. exact D.
    + destruct (IH _ _ _ _ _ _ E) as (w & -> & D). exists w. split; auto. now apply d_star_end.
  - destruct (sync _ _); [|discriminate]. destruct (o _ _ _) as [m|]; [|discriminate].
    destruct (nth_error bs m) as [b|] eqn:F; [|discriminate]. apply nth_error_In in F.
    destruct (B _ _ _ E) as (w & -> & D). exists w. split; auto. eapply d_alt; [|exact D].
    apply in_map_iff. exists b. auto.
Qed.
Lemma parse_sound inp f rest : parse o inp = OK f rest ->
  exists w x, inp = w ++ rest /\ f = [x] /\ file_tree w x.
Proof.
  unfold parse. intros E. apply andthen_ok in E. destruct E as (f1 & r1 & A & H). injection H as <- <-.
  destruct (exec_sound _ _ _ _ _ _ _ A) as (w & -> & D).
  exists w, (Node r_proto f1). repeat split. unfold file_tree.
  rewrite <- (app_nil_r w). constructor; [|constructor]. rewrite <- rhs_rule. exact D.
Qed.
End Sound.

(* ---------- the tokens that can come next ---------- *)
Lemma look_rule_S n q : look_rule (S n) q = look_seq (look_rule n) (rhs q).
Proof. reflexivity. Qed.
Lemma look_seq_nil F : look_seq F [] = ([], true).
Proof. reflexivity. Qed.
Lemma look_rule_fix q : look_rule depth q = look_seq (look_rule depth) (rhs q).
Proof.
  destruct (Nat.lt_ge_cases q 53) as [L|G].
  - assert (E : map (look_rule depth) (seq 0 53) = map (fun q => look_seq (look_rule depth) (rhs q)) (seq 0 53))
      by (vm_compute; reflexivity).
    apply (f_equal (fun l => nth q l (look_rule depth 0))) in E.
    rewrite (map_nth (look_rule depth)), seq_nth in E by exact L. cbn [Nat.add] in E. rewrite E.
    rewrite (nth_indep _ _ (look_seq (look_rule depth) (rhs 0))) by (now rewrite map_length, seq_length).
    rewrite (map_nth (fun q => look_seq (look_rule depth) (rhs q))), seq_nth by exact L. reflexivity.
  - assert (R : rhs q = []).
    { replace q with (53 + (q - 53))%nat by lia. unfold rhs. rewrite body_beyond. reflexivity. }
    rewrite R. change depth with (S 15). rewrite look_rule_S, R, !look_seq_nil. reflexivity.
Qed.
Lemma look_cons s l : look (s :: l) =
  let (a, e) := look_sym (look_rule depth) s in if e then union' a (look l) else (a, false).
Proof. reflexivity. Qed.
Lemma look_app b l : look (b ++ l) = if snd (look b) then union' (fst (look b)) (look l) else look b.
Proof.
  induction b as [|s b IH].
  - cbn. unfold union'. destruct (look l); reflexivity.
  - cbn [app]. rewrite !look_cons. destruct (look_sym _ s) as [a e]. destruct e; [|reflexivity].
    rewrite IH. unfold union'. cbn. destruct (look b) as [a' e']; cbn. destruct e'; cbn; [|reflexivity].
    now rewrite app_assoc.
Qed.
Lemma look_opt b : look_sym (look_rule depth) (Opt b) = (fst (look b), true).
Proof. reflexivity. Qed.
Lemma look_star b : look_sym (look_rule depth) (Star b) = (fst (look b), true).
Proof. reflexivity. Qed.
Lemma look_plus b : look_sym (look_rule depth) (Plus b) = look b.
Proof. reflexivity. Qed.
Lemma look_alt bs : look_sym (look_rule depth) (Alt bs) = fold_right (fun b => union (look b)) ([], false) bs.
Proof. reflexivity. Qed.
Lemma look_call r : look_sym (look_rule depth) (N r) = look (rule r).
Proof.
  transitivity (look_rule depth r); [reflexivity|]. rewrite look_rule_fix, rhs_rule. reflexivity.
Qed.
Lemma look_nil : look [] = ([], true).
Proof. reflexivity. Qed.
Lemma look_tok ks l : look (T ks :: l) = (ks, false).
Proof. reflexivity. Qed.
Local Opaque look look_sym rule rhs body look_rule look_seq.
Lemma fst_union x y : fst (union x y) = fst x ++ fst y.
Proof. reflexivity. Qed.
Lemma snd_union x y : snd (union x y) = snd x || snd y.
Proof. reflexivity. Qed.
Lemma look_alt_in b bs : In b bs ->
  incl (fst (look b)) (fst (look_sym (look_rule depth) (Alt bs))) /\
  (snd (look b) = true -> snd (look_sym (look_rule depth) (Alt bs)) = true).
Proof.
  rewrite look_alt. induction bs as [|c bs IH]; [easy|]. cbn [fold_right]. intros [->|H].
  - rewrite fst_union, snd_union. split; [apply incl_appl, incl_refl|]. intros ->. reflexivity.
  - destruct (IH H) as [A B]. rewrite fst_union, snd_union. split; [now apply incl_appr|]. intros E.
    rewrite (B E). apply orb_true_r.
Qed.
(** the next token is among those that [look] gives *)
Definition first_ok (l : list sym) (w : list tok) : Prop :=
  match w with [] => snd (look l) = true | x :: _ => In (t_kind x) (fst (look l)) end.
Lemma first_weaken l l' w : incl (fst (look l)) (fst (look l')) ->
  (snd (look l) = true -> snd (look l') = true) -> first_ok l w -> first_ok l' w.
Proof. intros A B. destruct w; cbn; auto. Qed.
Lemma derives_first l w f : derives l w f -> first_ok l w.
Proof.
  induction 1.
  - cbn. rewrite look_nil. reflexivity.
  - cbn. rewrite look_tok. auto.
  - pose proof (look_call r) as A.
    destruct w1 as [|x w1]; cbn [app].
    + cbn in IHderives1. revert IHderives2. apply first_weaken; rewrite look_cons, A;
        rewrite (surjective_pairing (look (rule r))), IHderives1; unfold union'; cbn.
      * now apply incl_appr, incl_refl.
      * auto.
    + cbn in *. rewrite look_cons, A. revert IHderives1. destruct (look (rule r)) as [a e]. cbn. intros IH1.
      destruct e; unfold union'; cbn; auto. apply in_or_app. auto.
  - revert IHderives. apply first_weaken; rewrite look_cons, look_opt; unfold union'; cbn; auto.
    now apply incl_appr, incl_refl.
  - revert IHderives. apply first_weaken; rewrite look_cons, look_opt, look_app; unfold union';
      destruct (look b) as [a e]; cbn; destruct e; cbn; auto using incl_refl.
    + now apply incl_appl, incl_refl.
    + discriminate.
  - revert IHderives. apply first_weaken; rewrite look_cons, look_star; unfold union'; cbn; auto.
    now apply incl_appr, incl_refl.
  - revert IHderives. apply first_weaken; rewrite look_app, !look_cons, look_star; unfold union';
      destruct (look b) as [a e]; cbn; destruct e; cbn; auto using incl_refl.
    + apply incl_app; [now apply incl_appl, incl_refl|apply incl_refl].
    + now apply incl_appl, incl_refl.
    + discriminate.
  - revert IHderives. apply first_weaken; rewrite look_app, !look_cons, look_star, look_plus; unfold union';
      destruct (look b) as [a e]; cbn; destruct e; cbn; auto using incl_refl.
    apply incl_app; [now apply incl_appl, incl_refl|apply incl_refl].
  - destruct (look_alt_in _ _ H) as [A B].
    revert IHderives. apply first_weaken; rewrite look_app, look_cons;
      destruct (look_sym _ (Alt bs)) as [a e]; destruct (look b) as [a' e']; cbn in *.
    + destruct e'; cbn.
      * rewrite B by reflexivity. cbn. apply incl_app; [now apply incl_appl|now apply incl_appr, incl_refl].
      * destruct e; cbn; auto. now apply incl_appl.
    + destruct e'; cbn; [|discriminate]. rewrite B by reflexivity. auto.
Qed.
Lemma derives_nonempty l w f : snd (look l) = false -> derives l w f -> w <> [].
Proof. intros E D ->. apply derives_first in D. cbn in D. congruence. Qed.

(* ---------- the parser ends ---------- *)
(** How many calls can be under way before a token is matched *)
Section Weight.
Variable rw : nat -> nat.
Fixpoint weight (c : code) : nat :=
  let seq := fix seq l :=
    match l with
    | [] => 1%nat
    | c :: l' => S (if snd (look [erase c]) then Nat.max (weight c) (seq l') else weight c)
    end in
  match c with
  | Match _ | MatchSet _ => 0%nat
  | Call q => rw q
  | If _ b | While _ b | DoWhile _ b | IfPredict _ b | WhilePredict _ b => seq b
  | Switch cases => fold_right (fun p m => Nat.max (seq (snd p)) m) 0%nat cases
  | SwitchPredict _ bs => fold_right (fun b m => Nat.max (seq b) m) 0%nat bs
  end.
Definition weights : list code -> nat :=
  fix seq l :=
    match l with
    | [] => 1%nat
    | c :: l' => S (if snd (look [erase c]) then Nat.max (weight c) (seq l') else weight c)
    end.
End Weight.
Fixpoint rule_weight (n q : nat) : nat :=
  match n with O => 0%nat | S n' => weights (rule_weight n') (body q) end.
Definition rwt := rule_weight depth.
Definition K : nat := 100.
(** a block and everything in it weighs less than [K], and loops match a token *)
Fixpoint light (c : code) : bool :=
  let seq := fix seq l :=
    match l with
    | [] => true
    | c :: l' => (weights rwt l <? K)%nat && light c && seq l'
    end in
  match c with
  | Match _ | MatchSet _ => true
  | Call q => negb (snd (look [N q])) && (q <? 53)%nat
  | If _ b | IfPredict _ b => seq b
  | While _ b | WhilePredict _ b | DoWhile _ b => seq b && negb (snd (look (map erase b)))
  | Switch cases => forallb (fun p => seq (snd p)) cases
  | SwitchPredict _ bs => forallb seq bs
  end.
Definition lights : list code -> bool :=
  fix seq l :=
    match l with
    | [] => true
    | c :: l' => (weights rwt l <? K)%nat && light c && seq l'
    end.
Lemma lights_all : forallb (fun q => lights (body q)) (seq 0 53) = true.
Proof. vm_compute. reflexivity. Qed.
Lemma lights_body q : lights (body q) = true.
Proof.
  destruct (Nat.lt_ge_cases q 53) as [L|G].
  - pose proof lights_all as A. rewrite forallb_forall in A. apply A. apply in_seq. lia.
  - replace q with (53 + (q - 53))%nat by lia. rewrite body_beyond. reflexivity.
Qed.
Lemma rwt_all : forallb (fun q => (rwt q =? weights rwt (body q))%nat) (seq 0 53) = true.
Proof. vm_compute. reflexivity. Qed.
Lemma rwt_fix q : (q < 53)%nat -> rwt q = weights rwt (body q).
Proof.
  intros L. pose proof rwt_all as A. rewrite forallb_forall in A. apply Nat.eqb_eq, A. apply in_seq. lia.
Qed.
Lemma weights_cons c l : weights rwt (c :: l) =
  S (if snd (look [erase c]) then Nat.max (weight rwt c) (weights rwt l) else weight rwt c).
Proof. reflexivity. Qed.
Lemma lights_lt l : lights l = true -> (weights rwt l < K)%nat.
Proof.
  destruct l; [intros _; unfold K; cbn; lia|]. cbn [lights].
  rewrite !andb_true_iff. intros [[A _] _]. now apply Nat.ltb_lt in A.
Qed.
Lemma lights_cons c l : lights (c :: l) = true -> light c = true /\ lights l = true.
Proof. cbn [lights]. rewrite !andb_true_iff. tauto. Qed.
Lemma max_in {A} (g : A -> nat) x l : In x l -> (g x <= fold_right (fun y m => Nat.max (g y) m) 0 l)%nat.
Proof. induction l as [|y l IH]; [easy|]. intros [->|H]; cbn; [lia|]. specialize (IH H). lia. Qed.
Section Ends.
Variable o : oracle.
Definition starts_light (cs : list code) : Prop :=
  match cs with [] => True | c :: l => light c = true /\ lights l = true end.
Lemma starts cs : lights cs = true -> starts_light cs.
Proof. destruct cs; [easy|]. apply lights_cons. Qed.
Lemma andthen_fuel x g : x <> NoFuel -> (forall f r, x = OK f r -> g f r <> NoFuel) -> andthen x g <> NoFuel.
Proof. destruct x; cbn; auto; discriminate. Qed.
Lemma exec_ends n : forall cs r k inp, starts_light cs ->
  (K * length inp + weights rwt cs < n)%nat -> exec o n cs r k inp <> NoFuel.
Proof.
  induction n as [|n IH]; intros cs r k inp S L; [lia|].
  destruct cs as [|c cs]; cbn [exec]; [discriminate|]. destruct S as [Sc S].
  pose proof (lights_lt _ S) as Wt. rewrite weights_cons in L.
  assert (Hc : snd (look [erase c]) = true -> (weight rwt c < n - K * length inp)%nat /\ (weights rwt cs < n - K * length inp)%nat).
  { intros E. rewrite E in L. lia. }
  assert (Wc : (K * length inp + weight rwt c < n)%nat).
  { destruct (snd (look [erase c])); lia. }
  assert (Nx : forall w inp1 f, inp = w ++ inp1 -> derives [erase c] w f ->
     (K * length inp1 + weights rwt cs < n)%nat).
  { intros w inp1 f -> D. rewrite app_length in *. destruct (snd (look [erase c])) eqn:E.
    - destruct (Hc eq_refl). nia.
    - apply derives_nonempty in D; [|exact E]. destruct w; [easy|]. cbn [length] in *. unfold K in *. lia. }
  assert (SK : forall w inp1 f l, inp = w ++ inp1 -> derives l w f -> snd (look l) = false ->
     (K * length inp1 + K + weight rwt c < n)%nat).
  { intros w inp1 f l -> D E. apply derives_nonempty in D; [|exact E]. destruct w; [easy|].
    rewrite app_length in *. cbn [length] in *. unfold K in *. lia. }
  assert (B : forall b r' next, lights b = true -> (weights rwt b <= weight rwt c)%nat -> starts_light next ->
    (forall w inp1 f, inp = w ++ inp1 -> derives (map erase b) w f -> (K * length inp1 + weights rwt next < n)%nat) ->
    andthen (exec o n b r' k inp) (fun f1 inp1 =>
      andthen (exec o n next r k inp1) (fun f2 inp2 => OK (f1 ++ f2) inp2)) <> NoFuel).
  { intros b r' next Lb Wb Sn H. apply andthen_fuel.
    - apply IH; [now apply starts|lia].
    - intros f1 inp1 E. destruct (exec_sound _ _ _ _ _ _ _ _ E) as (w & Ew & D).
      apply andthen_fuel; [|discriminate]. apply IH; [exact Sn|]. eapply H; eauto. }
  assert (M : forall ts,
    match inp with
    | t :: inp' => if mem (t_kind t) ts
        then andthen (exec o n cs r k inp') (fun f inp2 => OK (Leaf t :: f) inp2) else Err
    | [] => Err
    end <> NoFuel).
  { intros ts. destruct inp as [|t inp]; [discriminate|]. destruct (mem _ ts); [|discriminate].
    apply andthen_fuel; [|discriminate]. apply IH; [now apply starts|]. cbn [length] in *. unfold K in *. lia. }
  destruct c; cbn [light] in Sc.
  - apply M.
  - apply M.
  - apply andb_true_iff in Sc. destruct Sc as [Nn Lq]. apply negb_true_iff in Nn. apply Nat.ltb_lt in Lq.
    apply andthen_fuel.
    + apply IH; [apply starts, lights_body|]. rewrite <- rwt_fix by exact Lq. exact Wc.
    + intros f1 inp1 E. destruct (exec_sound _ _ _ _ _ _ _ _ E) as (w & Ew & D).
      apply andthen_fuel; [|discriminate]. apply IH; [now apply starts|].
      eapply (Nx w inp1 [Node r0 f1]); [exact Ew|]. cbn [erase]. rewrite <- (app_nil_r w). constructor; [|constructor].
      rewrite <- rhs_rule. exact D.
  - destruct (sync _ _); [|discriminate]. destruct (mem _ ts).
    + apply B; [exact Sc|apply Nat.le_refl|now apply starts|]. intros w inp1 f E D. eapply Nx; [exact E|]. cbn [erase].
      apply d_opt. rewrite app_nil_r. exact D.
    + apply IH; [now apply starts|]. eapply (Nx [] inp []); [reflexivity|]. apply d_opt_no. constructor.
  - apply andb_true_iff in Sc. destruct Sc as [Lb Nn]. apply negb_true_iff in Nn.
    destruct (sync _ _); [|discriminate]. destruct (mem _ ts).
    + apply B; [exact Lb|apply Nat.le_refl| |].
      * cbn. split; [|exact S]. cbn [light]. apply andb_true_iff. split; [exact Lb|]. now rewrite Nn.
      * intros w inp1 f E D. specialize (SK _ _ _ _ E D Nn). rewrite weights_cons. pose proof (lights_lt _ Lb).
        change (snd (look [erase (While ts b)])) with true. cbv iota.
        change (weight rwt (While ts b)) with (weights rwt b). unfold K in *. lia.
    + apply IH; [now apply starts|]. eapply (Nx [] inp []); [reflexivity|]. apply d_star_end. constructor.
  - apply andb_true_iff in Sc. destruct Sc as [Lb Nn]. apply negb_true_iff in Nn.
    destruct (sync _ _); [|discriminate]. apply B; [exact Lb|apply Nat.le_refl| |].
    + cbn. split; [|exact S]. cbn [light]. apply andb_true_iff. split; [exact Lb|]. now rewrite Nn.
    + intros w inp1 f E D. specialize (SK _ _ _ _ E D Nn). rewrite weights_cons. pose proof (lights_lt _ Lb).
      change (snd (look [erase (While ts b)])) with true. cbv iota.
      change (weight rwt (While ts b)) with (weights rwt b). unfold K in *. lia.
  - destruct (sync _ _); [|discriminate]. destruct (find_case _ cases) as [b|] eqn:F; [|discriminate].
    destruct (find_case_in _ _ _ F) as (ts & I1 & _). rewrite forallb_forall in Sc. specialize (Sc _ I1). cbn in Sc.
    apply B; [exact Sc| |now apply starts|].
    + exact (max_in (fun p => weights rwt (snd p)) (ts, b) cases I1).
    + intros w inp1 f E D. eapply Nx; [exact E|]. cbn [erase]. eapply d_alt; [|rewrite app_nil_r; exact D].
      apply in_map_iff. exists (ts, b). split; auto.
  - destruct (sync _ _); [|discriminate]. destruct (o _ _ _) as [[|m]|]; [| |discriminate].
    + apply B; [exact Sc|apply Nat.le_refl|now apply starts|]. intros w inp1 f E D. eapply Nx; [exact E|]. cbn [erase].
      apply d_opt. rewrite app_nil_r. exact D.
    + apply IH; [now apply starts|]. eapply (Nx [] inp []); [reflexivity|]. apply d_opt_no. constructor.
  - apply andb_true_iff in Sc. destruct Sc as [Lb Nn]. apply negb_true_iff in Nn.
    destruct (sync _ _); [|discriminate]. destruct (o _ _ _) as [[|m]|]; [| |discriminate].
    + apply B; [exact Lb|apply Nat.le_refl| |].
      * cbn. split; [|exact S]. cbn [light]. apply andb_true_iff. split; [exact Lb|]. now rewrite Nn.
      * intros w inp1 f E D. specialize (SK _ _ _ _ E D Nn). rewrite weights_cons. pose proof (lights_lt _ Lb).
        change (snd (look [erase (WhilePredict d b)])) with true. cbv iota.
        change (weight rwt (WhilePredict d b)) with (weights rwt b). unfold K in *. lia.
    + apply IH; [now apply starts|]. eapply (Nx [] inp []); [reflexivity|]. apply d_star_end. constructor.
  - destruct (sync _ _); [|discriminate]. destruct (o _ _ _) as [m|]; [|discriminate].
    destruct (nth_error bs m) as [b|] eqn:F; [|discriminate]. apply nth_error_In in F.
    rewrite forallb_forall in Sc. specialize (Sc _ F).
    apply B; [exact Sc| |now apply starts|].
    + exact (max_in (weights rwt) b bs F).
    + intros w inp1 f E D. eapply Nx; [exact E|]. cbn [erase]. eapply d_alt; [|rewrite app_nil_r; exact D].
      apply in_map_iff. exists b. auto.
Qed.
Lemma parse_ends inp : parse o inp <> NoFuel.
Proof.
  unfold parse. apply andthen_fuel; [|discriminate]. apply exec_ends; [apply starts, lights_body|].
  assert (H : (weights rwt (body r_proto) < K)%nat) by apply lights_lt, lights_body. unfold K in *. lia.
Qed.
End Ends.
