(** Proofs about the lexer with its cache: any execution of any number of
    goroutines that share the cache gives each of them the tokens that the
    lexer without a cache finds. *)
From Coq Require Import List ZArith Bool Lia.
From Verif Require Import AtnTable Atn LexCache.
Import ListNotations.
Open Scope Z_scope.

(* ---------- lists ---------- *)
Lemma update_same {A} (l : list A) i x y : nth_error l i = Some y ->
  nth_error (update l i x) i = Some x.
Proof.
  revert i. induction l as [|z l IH]; intros [|i]; cbn; intros H; try discriminate; auto.
Qed.
Lemma update_other {A} (l : list A) i j x : i <> j ->
  nth_error (update l i x) j = nth_error l j.
Proof.
  revert i j. induction l as [|z l IH]; intros [|i] [|j] H; cbn; auto; try congruence.
Qed.

(* ---------- what is known of the automaton ---------- *)
Definition ext (d d' : dfa) : Prop :=
  forall p s, nth_error (dfa_states d) p = Some s ->
  exists s', nth_error (dfa_states d') p = Some s'
    /\ d_configs s' = d_configs s /\ d_accept s' = d_accept s.

Lemma ext_refl d : ext d d.
Proof. intros p s H. exists s. auto. Qed.
Lemma ext_trans a b c : ext a b -> ext b c -> ext a c.
Proof.
  intros H K p s E. destruct (H p s E) as (s1 & E1 & C1 & A1).
  destruct (K p s1 E1) as (s2 & E2 & C2 & A2). exists s2. repeat split; congruence.
Qed.

Section Cache.
Variable a : atn.
Variable char : Z -> Prop.            (* the characters of texts *)
Variable known : list config -> Prop. (* sets of configurations that occur *)
Hypothesis Hstart : exists l, start_configs a = Some l /\ known l.
Hypothesis Hreach : forall l c, known l -> char c ->
  exists r, reach a l c = Some r /\ (r <> [] -> known r).
Hypothesis Heof : forall l, known l -> reach a l (-1) = Some [].
Hypothesis Hacc : forall l, known l -> exists acc, accepts a l = Some acc.
Hypothesis Hapart : forall l m, known l -> known m ->
  state_hash m = state_hash l -> configs_equal l m = true -> l = m.

Definition edge_ok (d : dfa) (l : list config) (c : Z) (e : edge) : Prop :=
  match e with
  | ToError => reach a l c = Some []
  | ToState q => exists s, nth_error (dfa_states d) q = Some s
                   /\ reach a l c = Some (d_configs s) /\ d_configs s <> []
  end.
Definition state_ok (d : dfa) (s : dstate) : Prop :=
  known (d_configs s) /\ accepts a (d_configs s) = Some (d_accept s)
  /\ forall c e, In (c, e) (d_edges s) -> edge_ok d (d_configs s) c e.
Definition inv (d : dfa) : Prop :=
  (forall p s, nth_error (dfa_states d) p = Some s -> state_ok d s)
  /\ (forall p, dfa_s0 d = Some p ->
      exists s, nth_error (dfa_states d) p = Some s /\ start_configs a = Some (d_configs s)).

(* state p of the automaton has the configurations l *)
Definition has (d : dfa) (p : nat) (l : list config) : Prop :=
  exists s, nth_error (dfa_states d) p = Some s /\ d_configs s = l.
Lemma has_ext d d' p l : has d p l -> ext d d' -> has d' p l.
Proof.
  intros (s & E & <-) X. destruct (X p s E) as (s' & E' & C & _). exists s'. auto.
Qed.
Lemma edge_ok_ext d d' l c e : edge_ok d l c e -> ext d d' -> edge_ok d' l c e.
Proof.
  destruct e as [q|]; cbn; auto. intros (s & E & R & N) X.
  destruct (X q s E) as (s' & E' & C & _). exists s'. rewrite C. auto.
Qed.
Lemma state_ok_ext d d' s : state_ok d s -> ext d d' -> state_ok d' s.
Proof.
  intros (A & B & C) X. repeat split; auto. intros c e H. eapply edge_ok_ext; eauto.
Qed.

Lemma new_inv : inv new_dfa.
Proof.
  split; cbn.
  - intros [|p] s H; discriminate.
  - discriminate.
Qed.

Lemma dfa_get_spec l ds i p : dfa_get l ds i = Some p ->
  exists s, (i <= p)%nat /\ nth_error ds (p - i) = Some s
    /\ state_hash (d_configs s) = state_hash l /\ configs_equal l (d_configs s) = true.
Proof.
  revert i. induction ds as [|s ds IH]; cbn; intros i H; [discriminate|].
  destruct ((state_hash (d_configs s) =? state_hash l) && configs_equal l (d_configs s)) eqn:E.
  - injection H as <-. exists s. rewrite Nat.sub_diag. apply andb_prop in E as [E1 E2].
    apply Z.eqb_eq in E1. auto.
  - apply IH in H as (t & Hle & Hn & H1 & H2). exists t. split; [lia|].
    replace (p - i)%nat with (S (p - S i)) by lia. auto.
Qed.

Lemma add_spec d l acc sup d' p : inv d -> known l -> accepts a l = Some acc ->
  (sup = false -> start_configs a = Some l) ->
  add_dfa_state d l acc sup = (d', p) ->
  inv d' /\ ext d d' /\ has d' p l.
Proof.
  intros [I1 I2] K A S H. unfold add_dfa_state in H.
  destruct (dfa_get l (dfa_states d) 0) as [q|] eqn:G.
  - injection H as <- <-. apply dfa_get_spec in G as (s & _ & E & H1 & H2).
    rewrite Nat.sub_0_r in E. destruct (I1 q s E) as (Ks & As & Es).
    assert (EQ : l = d_configs s) by (apply Hapart; auto).
    assert (X : ext d {| dfa_states := dfa_states d;
                         dfa_s0 := if sup then dfa_s0 d else Some q |})
      by (intros p0 s0 E0; exists s0; auto).
    split; [split|split; [exact X|]].
    + intros p s' E'. eapply state_ok_ext; [apply (I1 p s' E') | exact X].
    + cbn. destruct sup; [apply I2|]. intros p [= <-]. exists s. rewrite <- EQ. auto.
    + exists s. auto.
  - injection H as <- <-.
    set (ns := {| d_configs := l; d_accept := acc; d_edges := [] |}).
    set (d1 := {| dfa_states := dfa_states d ++ [ns];
                  dfa_s0 := if sup then dfa_s0 d else Some (length (dfa_states d)) |}).
    assert (X : ext d d1).
    { intros p s E. exists s. split; auto. cbn. rewrite nth_error_app1; auto.
      apply nth_error_Some. congruence. }
    assert (N : nth_error (dfa_states d1) (length (dfa_states d)) = Some ns).
    { cbn. rewrite nth_error_app2, Nat.sub_diag; auto. }
    split; [split|split; [exact X|]].
    + intros p s E. cbn in E. destruct (Nat.lt_ge_cases p (length (dfa_states d))) as [L|L].
      * rewrite nth_error_app1 in E by auto. eapply state_ok_ext; [apply (I1 p s E) | exact X].
      * rewrite nth_error_app2 in E by auto.
        destruct (p - length (dfa_states d))%nat as [|[|k]]; cbn in E; try discriminate.
        injection E as <-. repeat split; cbn; auto. intros c e [].
    + cbn. destruct sup.
      * intros p E. destruct (I2 p E) as (s & E1 & E2).
        destruct (X p s E1) as (s' & E1' & C & _). exists s'. rewrite C. auto.
      * intros p [= <-]. exists ns. split; [exact N | cbn; auto].
    + exists ns. auto.
Qed.

Lemma in_dfa_slots c : in_dfa c = true -> in_slots c = true.
Proof. unfold in_dfa, in_slots, slots. rewrite !andb_true_iff, !Z.leb_le, Z.ltb_lt. intros [A B]. split; [exact A|]. exact (Zle_lt_succ c 127 B). Qed.
Lemma set_spec d p l c e : in_dfa c = true -> inv d -> has d p l -> edge_ok d l c e ->
  exists d', set_edge d p c e = Some d' /\ inv d' /\ ext d d'.
Proof.
  intros Hc [I1 I2] (s & E & C) EO. unfold set_edge. rewrite E. cbn [bind]. rewrite (in_dfa_slots _ Hc). cbn [negb].
  set (ns := {| d_configs := d_configs s; d_accept := d_accept s;
                d_edges := (c, e) :: d_edges s |}).
  set (d1 := {| dfa_states := update (dfa_states d) p ns; dfa_s0 := dfa_s0 d |}).
  assert (X : ext d d1).
  { intros q t Eq. cbn. destruct (Nat.eq_dec p q) as [<-|N].
    - exists ns. rewrite (update_same _ _ _ s E). rewrite E in Eq. injection Eq as <-. auto.
    - exists t. rewrite update_other; auto. }
  exists d1. split; [reflexivity|]. split; [split|exact X].
  - intros q t Eq. cbn in Eq. destruct (Nat.eq_dec p q) as [<-|N].
    + rewrite (update_same _ _ _ s E) in Eq. injection Eq as <-.
      destruct (I1 p s E) as (A & B & D). repeat split; auto. cbn.
      intros c0 e0 [[= <- <-]|Hin].
      * subst l. eapply edge_ok_ext; eauto.
      * eapply edge_ok_ext; eauto.
    + rewrite update_other in Eq by auto. eapply state_ok_ext; [apply (I1 q t Eq) | exact X].
  - intros q Eq. destruct (I2 q Eq) as (t & E1 & E2).
    destruct (X q t E1) as (t' & E1' & C' & _). exists t'. rewrite C'. auto.
Qed.

Lemma get_edge_in es c : in_slots c = true -> get_edge es c = Some (find_edge es c).
Proof. intros H. destruct es; [reflexivity|]. cbn [get_edge]. now rewrite H. Qed.
Lemma find_edge_in es t e : find_edge es t = Some e -> In (t, e) es.
Proof.
  induction es as [|[c f] es IH]; cbn; [discriminate|].
  destruct (c =? t) eqn:E.
  - intros [= ->]. apply Z.eqb_eq in E. subst. auto.
  - auto.
Qed.

(* ---------- programs that do what they should, whatever the others do ---------- *)
Inductive ok {A} (post : A -> dfa -> Prop) : prog A -> dfa -> Prop :=
| ok_ret x d : (forall d', ext d d' -> inv d' -> post x d') -> ok post (Ret x) d
| ok_step p d :
    (forall d', ext d d' -> inv d' ->
       exists d2 p2, step d' p = Some (d2, p2) /\ inv d2 /\ ext d' d2 /\ ok post p2 d2) ->
    ok post p d.

Lemma ok_ext {A} (post : A -> dfa -> Prop) p d d' : ok post p d -> ext d d' -> ok post p d'.
Proof.
  intros H X. destruct H as [x d H | p d H].
  - apply ok_ret. intros d2 X2. apply H. eapply ext_trans; eauto.
  - apply ok_step. intros d2 X2. apply H. eapply ext_trans; eauto.
Qed.

Lemma step_bind {A B} (p : prog A) (f : A -> prog B) d d2 p2 :
  step d p = Some (d2, p2) -> step d (pbind p f) = Some (d2, pbind p2 f).
Proof.
  destruct p; cbn; intros H; try discriminate; try (injection H as <- <-); auto.
  - destruct (add_dfa_state d l acc suppress). injection H as <- <-. auto.
  - now destruct (nth_error (dfa_states d) p).
  - destruct (nth_error (dfa_states d) p) as [s|]; [|reflexivity]. now destruct (get_edge (d_edges s) t).
  - destruct (set_edge d p t e); injection H as <- <-; auto.
Qed.

(* the programs a program can become *)
Inductive child {A} : prog A -> prog A -> Prop :=
| ch d p d2 p2 : step d p = Some (d2, p2) -> child p2 p.
Lemma panic_acc {A} : Acc (@child A) Panic.
Proof. constructor. intros y H. inversion H; subst. discriminate. Qed.
Lemma child_wf {A} : well_founded (@child A).
Proof.
  intros p. induction p; constructor; intros y H'; inversion H' as [d q d2 p2 E]; subst; cbn in E;
    try discriminate.
  - injection E as <- <-. auto.
  - destruct (add_dfa_state d l acc suppress). injection E as <- <-. auto.
  - injection E as <- <-. destruct (nth_error (dfa_states d) p); auto using panic_acc.
  - injection E as <- <-. destruct (nth_error (dfa_states d) p) as [s|]; [destruct (get_edge (d_edges s) t)|]; auto using panic_acc.
  - destruct (set_edge d p t e); injection E as <- <-; auto using panic_acc.
Qed.

Lemma ok_bind {A B} (Q : A -> dfa -> Prop) (post : B -> dfa -> Prop) f :
  forall p d, inv d -> ok Q p d ->
  (forall x d', ext d d' -> inv d' -> Q x d' -> ok post (f x) d') ->
  ok post (pbind p f) d.
Proof.
  intros p. induction (child_wf p) as [p _ IH]. intros d I H K.
  destruct H as [x d H | p d H].
  - cbn. apply K; auto using ext_refl.
  - apply ok_step. intros d' X I'. destruct (H d' X I') as (d2 & p2 & E & I2 & X2 & O).
    exists d2, (pbind p2 f). split; [now apply step_bind|]. split; [auto|]. split; [auto|].
    apply IH; auto.
    + econstructor; eauto.
    + intros x d3 X3 I3. apply K; auto. eapply ext_trans; [exact X|]. eapply ext_trans; eauto.
Qed.

Lemma ok_lift {A} (post : A -> dfa -> Prop) o x d : o = Some x ->
  (forall d', ext d d' -> inv d' -> post x d') -> ok post (lift o) d.
Proof. intros -> H. now apply ok_ret. Qed.

(* ---------- the parts of the lexer ---------- *)
Lemma add_state_ok l sup d : known l ->
  (sup = false -> start_configs a = Some l) ->
  ok (fun p d' => has d' p l) (add_state a l sup) d.
Proof.
  intros K S. unfold add_state. destruct (Hacc l K) as [acc E]. rewrite E. cbn.
  apply ok_step. intros d' X I. cbn.
  destruct (add_dfa_state d' l acc sup) as [d2 p] eqn:EA.
  destruct (add_spec _ _ _ _ _ _ I K E S EA) as (I2 & X2 & H).
  exists d2, (Ret p). split; [reflexivity|]. split; [exact I2|]. split; [exact X2|].
  apply ok_ret. intros d3 X3 _. eapply has_ext; eauto.
Qed.

Lemma has_known d p l : inv d -> has d p l -> known l.
Proof. intros [I _] (s & E & <-). apply (I p s E). Qed.

Definition stepable (l : list config) (c : Z) : Prop :=
  exists r, reach a l c = Some r /\ (r <> [] -> known r).

Lemma set_ok p l c e d : in_dfa c = true -> has d p l -> edge_ok d l c e ->
  ok (fun e d' => edge_ok d' l c e) (DoSet p c e (Ret e)) d.
Proof.
  intros Hc H EO. apply ok_step. intros d' X I.
  destruct (set_spec d' p l c e Hc I (has_ext _ _ _ _ H X) (edge_ok_ext _ _ _ _ _ EO X))
    as (d2 & E & I2 & X2).
  exists d2, (Ret e). cbn. rewrite E. split; [reflexivity|]. split; [auto|]. split; [auto|].
  apply ok_ret. intros d3 X3 _.
  eapply edge_ok_ext; [exact EO|]. eapply ext_trans; [exact X|]. eapply ext_trans; eauto.
Qed.

Lemma compute_ok p l c d : inv d -> has d p l -> stepable l c ->
  ok (fun e d' => edge_ok d' l c e) (compute_target a p l c) d.
Proof.
  intros I H (r & R & K). unfold compute_target. rewrite R. cbn [lift pbind].
  destruct r as [|x r].
  - destruct (in_dfa c) eqn:Hc.
    + now apply set_ok.
    + apply ok_ret. intros d' _ _. exact R.
  - eapply ok_bind; [exact I | apply add_state_ok; [apply K; discriminate | discriminate] |].
    intros q d' X I' Hq.
    assert (EO : edge_ok d' l c (ToState q)).
    { destruct Hq as (s & E & C). exists s. rewrite C. repeat split; auto. discriminate. }
    destruct (in_dfa c) eqn:Hc.
    + apply set_ok; auto. eapply has_ext; eauto.
    + apply ok_ret. intros d2 X2 _. eapply edge_ok_ext; eauto.
Qed.

Lemma next_ok p l c d : inv d -> has d p l -> stepable l c ->
  ok (fun e d' => edge_ok d' l c e) (next_state a p l c) d.
Proof.
  intros I H S. unfold next_state.
  eapply (ok_bind (fun o d' => match o with Some e => edge_ok d' l c e | None => True end));
    [exact I | |].
  - unfold existing_target. destruct (in_dfa c) eqn:Hc.
    + apply ok_step. intros d' X I'. cbn.
      destruct (has_ext _ _ _ _ H X) as (s & E & C). rewrite E.
      rewrite (get_edge_in _ _ (in_dfa_slots _ Hc)).
      exists d', (Ret (find_edge (d_edges s) c)). split; [reflexivity|]. split; [auto|].
      split; [apply ext_refl|]. apply ok_ret. intros d2 X2 _.
      destruct (find_edge (d_edges s) c) as [e|] eqn:F; auto.
      apply find_edge_in in F. destruct I' as [I1 _]. destruct (I1 p s E) as (_ & _ & D).
      rewrite <- C. eapply edge_ok_ext; eauto.
    + now apply ok_ret.
  - intros [e|] d' X I' Q.
    + apply ok_ret. intros d2 X2 _. eapply edge_ok_ext; eauto.
    + apply compute_ok; auto. eapply has_ext; eauto.
Qed.

Definition gives {A} (o : option A) (x : A) (_ : dfa) : Prop := o = Some x.

Lemma exec_ok inp : Forall char inp -> forall p l n prev d, inv d -> has d p l ->
  ok (gives (exec a l inp n prev)) (exec_dfa a p l inp n prev) d.
Proof.
  induction 1 as [|c inp Hc Hi IH]; intros p l n prev d I H; cbn [exec_dfa].
  - assert (K := has_known _ _ _ I H). pose proof (Heof l K) as R.
    eapply ok_bind; [exact I | apply next_ok; auto; exists []; split; [exact R | congruence] |].
    intros e d' X I' EO. destruct e as [q|].
    + destruct EO as (s & _ & E & N). rewrite R in E. congruence.
    + apply ok_ret. intros. unfold gives. cbn [exec]. rewrite R. reflexivity.
  - assert (K := has_known _ _ _ I H).
    eapply ok_bind; [exact I | apply next_ok; auto; apply (Hreach l c K Hc) |].
    intros e d' X I' EO. destruct e as [q|].
    + destruct EO as (s & E & R & N).
      assert (A : accepts a (d_configs s) = Some (d_accept s)) by (apply I' in E; apply E).
      apply ok_step. intros d2 X2 I2. cbn.
      destruct (X2 q s E) as (s2 & E2 & C2 & A2). rewrite E2, C2, A2.
      eexists d2, _. split; [reflexivity|]. split; [auto|]. split; [apply ext_refl|].
      rewrite R. destruct (d_configs s) as [|y m] eqn:EC; [congruence|].
      cbn [bind]. rewrite A. cbn [bind].
      apply IH; auto. exists s2. split; congruence.
    + apply ok_ret. intros. unfold gives. cbn [exec]. cbn in EO. rewrite EO. reflexivity.
Qed.

Lemma start_state_ok d : inv d ->
  ok (fun p d' => exists l, start_configs a = Some l /\ has d' p l) (start_state a) d.
Proof.
  intros I. unfold start_state. apply ok_step. intros d' X I'. cbn.
  eexists d', _. split; [reflexivity|]. split; [auto|]. split; [apply ext_refl|].
  destruct (dfa_s0 d') as [p|] eqn:E.
  - apply ok_ret. intros d2 X2 I2. destruct I' as [_ I'].
    destruct (I' p E) as (s & Es & S). exists (d_configs s). split; auto.
    apply (has_ext d' d2); auto. exists s. auto.
  - destruct Hstart as (l & S & K). rewrite S. cbn [lift pbind].
    assert (G := add_state_ok l false d' K (fun _ => S)).
    replace (add_state a l false) with (pbind (add_state a l false) (fun p => Ret p))
      by (unfold add_state; now destruct (accepts a l)).
    eapply ok_bind; [exact I' | exact G |].
    intros p d2 X2 I2 Hp. apply ok_ret. intros d3 X3 _. exists l. split; [reflexivity|].
    exact (has_ext d2 d3 p l Hp X3).
Qed.

Lemma match_ok inp d : inv d -> Forall char inp ->
  ok (gives (match_token a inp)) (match_token_dfa a inp) d.
Proof.
  intros I Hi. unfold match_token_dfa.
  eapply ok_bind; [exact I | apply start_state_ok; auto |].
  intros p d1 X1 I1 (l & S & H).
  destruct H as (s & E & C). subst l.
  assert (A : accepts a (d_configs s) = Some (d_accept s)) by (apply I1 in E; apply E).
  apply ok_step. intros d2 X2 I2. cbn.
  destruct (X2 p s E) as (s2 & E2 & C2 & A2). rewrite E2, C2, A2.
  eexists d2, _. split; [reflexivity|]. split; [auto|]. split; [apply ext_refl|].
  eapply ok_bind; [exact I2 | apply exec_ok; auto; exists s2; auto |].
  intros [prev n] d3 X3 I3 G.
  assert (M : match_token a inp =
    match prev with
    | Some (len, (tty, e)) => Some (OToken len tty (channel e))
    | None =>
        match inp with
        | [] => Some OEof
        | _ => Some (OError (if (n <? length inp)%nat then Datatypes.S n else n))
        end
    end).
  { unfold match_token. rewrite S. cbn [bind]. rewrite A. cbn [bind]. unfold gives in G.
    rewrite G. cbn [bind]. reflexivity. }
  destruct prev as [[len [tty e]]|].
  - apply ok_ret. intros. exact M.
  - destruct inp; apply ok_ret; intros; exact M.
Qed.

Lemma skipn_Forall {A} (P : A -> Prop) n l : Forall P l -> Forall P (skipn n l).
Proof. revert l. induction n; intros l H; cbn; auto. destruct l; auto. inversion H; auto. Qed.

Lemma tokens_ok fuel : forall inp hit d r, inv d -> Forall char inp ->
  tokens fuel a inp hit = Some r ->
  ok (fun x _ => x = r) (tokens_dfa fuel a inp hit) d.
Proof.
  induction fuel as [|fuel IH]; intros inp hit d r I Hi T; cbn [tokens] in T; [discriminate|].
  cbn [tokens_dfa]. destruct hit.
  - injection T as <-. now apply ok_ret.
  - eapply ok_bind; [exact I | apply match_ok; auto |].
    intros o d' X I' G. unfold gives in G. rewrite G in T. cbn [bind] in T.
    destruct o as [len tty ch| |k].
    + remember (match skipn len inp with [] => true | _ => false end) as b eqn:Eb.
      destruct (tokens fuel a (skipn len inp) b) as [r1|] eqn:T1; [|discriminate].
      cbn [bind] in T. injection T as <-.
      eapply ok_bind; [exact I' | apply (IH _ _ _ r1); auto; now apply skipn_Forall |].
      intros x d2 X2 I2 ->. now apply ok_ret.
    + injection T as <-. now apply ok_ret.
    + remember (match skipn k inp with [] => true | _ => false end) as b eqn:Eb.
      destruct (tokens fuel a (skipn k inp) b) as [r1|] eqn:T1; [|discriminate].
      cbn [bind] in T. injection T as <-.
      eapply ok_bind; [exact I' | apply (IH _ _ _ r1); auto; now apply skipn_Forall |].
      intros x d2 X2 I2 ->. now apply ok_ret.
Qed.

(* ---------- goroutines ---------- *)
Lemma Forall2_mid {A B} (R : A -> B -> Prop) l1 x l2 ys :
  Forall2 R (l1 ++ x :: l2) ys ->
  exists y1 y y2, ys = y1 ++ y :: y2 /\ Forall2 R l1 y1 /\ R x y /\ Forall2 R l2 y2.
Proof.
  intros H. apply Forall2_app_inv_l in H as (y1 & y2 & H1 & H2 & ->).
  inversion H2; subst. exists y1, y, l'. auto.
Qed.

Lemma Forall2_weaken {A B} (R R' : A -> B -> Prop) l m :
  (forall x y, R x y -> R' x y) -> Forall2 R l m -> Forall2 R' l m.
Proof. intros H. induction 1; auto. Qed.

Lemma executes_ok {A} d ps d' ps' : @executes A d ps d' ps' -> forall rs, inv d ->
  Forall2 (fun p r => ok (fun x _ => x = r) p d) ps rs ->
  inv d' /\ Forall2 (fun p r => ok (fun x _ => x = r) p d') ps' rs.
Proof.
  induction 1 as [|d ps d1 ps1 d2 ps2 G E IH]; intros rs I H; [auto|].
  destruct G as [d d1 p p1 before after S].
  apply Forall2_mid in H as (y1 & y & y2 & -> & H1 & Hp & H2).
  destruct Hp as [x d Hx | p d Hp]; [discriminate|].
  destruct (Hp d (ext_refl d) I) as (d3 & p3 & S3 & I3 & X3 & O3).
  rewrite S in S3. injection S3 as <- <-.
  apply IH; auto. apply Forall2_app.
  - eapply Forall2_weaken; [|exact H1]. intros q r O. exact (ok_ext _ _ _ _ O X3).
  - constructor; auto. eapply Forall2_weaken; [|exact H2]. intros q r O. exact (ok_ext _ _ _ _ O X3).
Qed.

Lemma ok_live {A} (r : A) p d : inv d -> ok (fun x _ => x = r) p d ->
  p = Ret r \/ exists d' p', step d p = Some (d', p').
Proof.
  intros I H. destruct H as [x d H | p d H].
  - left. rewrite (H d (ext_refl d) I). reflexivity.
  - right. destruct (H d (ext_refl d) I) as (d2 & p2 & E & _). eauto.
Qed.

Lemma run_step {A} (p : prog A) d d2 p2 : step d p = Some (d2, p2) ->
  run p d = run p2 d2.
Proof.
  destruct p; cbn; intros H; try discriminate; try (injection H as <- <-); auto.
  - destruct (add_dfa_state d l acc suppress). injection H as <- <-. auto.
  - now destruct (nth_error (dfa_states d) p).
  - destruct (nth_error (dfa_states d) p) as [s|]; [|reflexivity]. now destruct (get_edge (d_edges s) t).
  - destruct (set_edge d p t e); injection H as <- <-; auto.
Qed.

Lemma run_ok {A} (r : A) : forall p d, inv d -> ok (fun x _ => x = r) p d ->
  snd (run p d) = Some r /\ inv (fst (run p d)).
Proof.
  intros p. induction (child_wf p) as [p _ IH]. intros d I H.
  destruct H as [x d H | p d H].
  - cbn. rewrite (H d (ext_refl d) I). auto.
  - destruct (H d (ext_refl d) I) as (d2 & p2 & E & I2 & X2 & O).
    rewrite (run_step _ _ _ _ E). apply IH; auto. econstructor; eauto.
Qed.
End Cache.

(* ---------- executions end ---------- *)
Inductive one_child {A} : list (prog A) -> list (prog A) -> Prop :=
| oc p p' before after : child p' p ->
    one_child (before ++ p' :: after) (before ++ p :: after).
Lemma one_child_cons {A} (p : prog A) ps y : one_child y (p :: ps) ->
  (exists p', child p' p /\ y = p' :: ps) \/ (exists ps', one_child ps' ps /\ y = p :: ps').
Proof.
  intros H. remember (p :: ps) as l eqn:E. destruct H as [q q' before after C].
  destruct before as [|b before]; cbn in *; injection E as -> <-.
  - left. eauto.
  - right. exists (before ++ q' :: after). split; auto. now constructor.
Qed.
Lemma one_child_wf {A} : well_founded (@one_child A).
Proof.
  intros ps. induction ps as [|p ps IH].
  - constructor. intros y H. exfalso. remember [] as l eqn:E in H.
    destruct H as [? ? before ? ?]. destruct before; discriminate.
  - revert ps IH. induction (child_wf p) as [p _ IHp].
    intros ps Hps. induction Hps as [ps Hps IHps]. constructor. intros y H.
    apply one_child_cons in H as [(p' & C & ->)|(ps' & C & ->)].
    + apply IHp; auto. now constructor.
    + now apply IHps.
Qed.
Lemma goes_wf {A} : well_founded (fun (y x : dfa * list (prog A)) => goes (fst x) (snd x) (fst y) (snd y)).
Proof.
  intros [d ps]. revert d. induction (one_child_wf ps) as [ps _ IH]. intros d.
  constructor. intros [d' ps'] G. cbn in G.
  assert (C : one_child ps' ps).
  { destruct G. constructor. econstructor; eauto. }
  apply IH; auto.
Qed.
