(** What holds of a program whose objects nobody else touches holds in every interleaving. *)
From Coq Require Import Lia Sorting.Permutation.
From Verif Require Import Base Value Pools.
Open Scope nat_scope.

(** [wp st p Q]: whatever the objects contain that it takes, [p], holding objects with the contents
    [st], uses only objects it holds, and when it ends, [Q] holds of the objects and the result. *)
Fixpoint wp {A} (st : list (option content)) (p : prog A) (Q : list (option content) -> A -> Prop) : Prop :=
  match p with
  | Ret a => Q st a
  | Get q k => forall c, wp (st ++ [Some c]) (k (length st)) Q
  | Put i k => (exists c, nth_error st i = Some (Some c)) /\ wp (set_nth i None st) k Q
  | Rd i k => exists c, nth_error st i = Some (Some c) /\ wp st (k c) Q
  | Wr i c k => (exists c0, nth_error st i = Some (Some c0)) /\ wp (set_nth i (Some c) st) k Q
  end.

Lemma wp_mono : forall {A} (p : prog A) st (Q Q' : list (option content) -> A -> Prop),
  (forall st r, Q st r -> Q' st r) -> wp st p Q -> wp st p Q'.
Proof.
  intros A p. induction p as [a|q k IH|i k IH|i k IH|i c k IH]; intros st Q Q' H W; cbn in *.
  - now apply H.
  - intro c. now apply (IH _ _ Q).
  - destruct W as [X W]. split; [exact X|]. now apply (IH _ Q).
  - destruct W as (c & X & W). exists c. split; [exact X|]. now apply (IH _ _ Q).
  - destruct W as [X W]. split; [exact X|]. now apply (IH _ Q).
Qed.
Lemma wp_bind : forall {A B} (p : prog A) (f : A -> prog B) st Q,
  wp st p (fun st' r => wp st' (f r) Q) -> wp st (bindP p f) Q.
Proof.
  intros A B p f. induction p as [a|q k IH|i k IH|i k IH|i c k IH]; intros st Q W; cbn in *.
  - exact W.
  - intro c. apply IH, W.
  - destruct W as [X W]. split; [exact X|]. now apply IH.
  - destruct W as (c & X & W). exists c. split; [exact X|]. now apply IH.
  - destruct W as [X W]. split; [exact X|]. now apply IH.
Qed.

Lemma set_nth_length : forall {A} i (a : A) l, length (set_nth i a l) = length l.
Proof. intros A i a l. revert i. induction l as [|x l IH]; intros [|i]; cbn; congruence. Qed.
Lemma set_nth_same : forall {A} i (a : A) l, i < length l -> nth_error (set_nth i a l) i = Some a.
Proof. intros A i a l. revert i. induction l as [|x l IH]; intros [|i] L; cbn in *; try lia; [reflexivity|]. apply IH. lia. Qed.
Lemma set_nth_other : forall {A} i j (a : A) l, i <> j -> nth_error (set_nth i a l) j = nth_error l j.
Proof. intros A i j a l. revert i j. induction l as [|x l IH]; intros [|i] [|j] N; cbn; try reflexivity; try lia. apply IH. lia. Qed.
Lemma set_nth_split : forall {A} (l : list A) j p, nth_error l j = Some p ->
  exists l1 l2, l = l1 ++ p :: l2 /\ length l1 = j /\ forall p', set_nth j p' l = l1 ++ p' :: l2.
Proof.
  intros A l. induction l as [|x l IH]; intros [|j] p H; cbn in H; try discriminate.
  - injection H as ->. exists [], l. auto.
  - destruct (IH j p H) as (l1 & l2 & -> & <- & F). exists (x :: l1), l2. repeat split; try reflexivity. intro p'. cbn. now rewrite F.
Qed.
Lemma set_nth_map : forall {A B} (f : A -> B) i a l, map f (set_nth i a l) = set_nth i (f a) (map f l).
Proof. intros A B f i a l. revert i. induction l as [|x l IH]; intros [|i]; cbn; try reflexivity. now rewrite IH. Qed.
Lemma nth_error_lt : forall {A} (l : list A) i x, nth_error l i = Some x -> i < length l.
Proof. intros A l i x H. apply nth_error_Some. congruence. Qed.

Section Sys.
Context {A : Type}.
Definition look (m : nat -> content) (h : handle) : option content := option_map (fun qa => m (snd qa)) h.
Definition proc_ok (m : nat -> content) (Q : A -> Prop) (p : proc A) : Prop :=
  wp (map (look m) (p_held p)) (p_prog p) (fun _ r => Q r).
Definition sys_ok (Qs : list (A -> Prop)) (s : sys A) : Prop :=
  NoDup (map snd (s_pool s) ++ held s) /\ Forall2 (proc_ok (s_mem s)) Qs (s_procs s).

Definition addr_of (h : handle) : list nat := match h with Some (_, a) => [a] | None => [] end.
Lemma look_other : forall m a c hs, ~ In a (flat_map addr_of hs) -> map (look (set_mem m a c)) hs = map (look m) hs.
Proof.
  intros m a c hs. induction hs as [|[[q b]|] hs IH]; cbn; intro H; [reflexivity| |f_equal; auto].
  rewrite IH by tauto. f_equal. unfold look, set_mem. cbn. destruct (Nat.eqb_spec b a); [tauto|reflexivity].
Qed.
Lemma procs_other : forall m a c Qs ps, ~ In a (flat_map addrs ps) -> Forall2 (proc_ok m) Qs ps -> Forall2 (proc_ok (set_mem m a c)) Qs ps.
Proof.
  intros m a c Qs ps H F. induction F as [|Q p Qs ps X F IH]; constructor; cbn in H; rewrite in_app_iff in H.
  - unfold proc_ok. rewrite look_other; [exact X|]. tauto.
  - apply IH. tauto.
Qed.
Lemma look_self : forall m a c i q hs, nth_error hs i = Some (Some (q, a)) -> NoDup (flat_map addr_of hs) ->
  map (look (set_mem m a c)) hs = set_nth i (Some c) (map (look m) hs).
Proof.
  intros m a c i q hs. revert i. induction hs as [|h hs IH]; intros [|i] H N; cbn in H; try discriminate.
  - injection H as ->. cbn in N. inversion N as [|? ? N1 N2]; subst. cbn. rewrite look_other by exact N1. unfold set_mem. now rewrite Nat.eqb_refl.
  - cbn. cbn in N. assert (I : In a (flat_map addr_of hs)) by (apply in_flat_map; exists (Some (q, a)); split; [eapply nth_error_In; exact H|now left]).
    destruct h as [[q' b]|]; cbn in N.
    + inversion N as [|? ? N1 N2]; subst. rewrite (IH i H N2). f_equal. unfold set_mem. cbn. destruct (Nat.eqb_spec b a); [subst; contradiction|reflexivity].
    + now rewrite (IH i H N).
Qed.
Lemma look_put : forall m i hs, map (look m) (set_nth i None hs) = set_nth i None (map (look m) hs).
Proof. intros m i hs. now rewrite set_nth_map. Qed.
Lemma look_nth : forall m hs i h, nth_error hs i = Some h -> nth_error (map (look m) hs) i = Some (look m h).
Proof. intros m hs i h H. now rewrite nth_error_map, H. Qed.

Lemma put_addrs : forall hs i q a, nth_error hs i = Some (Some (q, a)) -> Permutation (flat_map addr_of hs) (a :: flat_map addr_of (set_nth i None hs)).
Proof.
  intros hs. induction hs as [|h hs IH]; intros [|i] q a H; cbn in H; try discriminate.
  - injection H as ->. reflexivity.
  - cbn. rewrite (IH i q a H). symmetry. apply Permutation_middle.
Qed.
Lemma F2_split : forall Qs l1 p l2 m, Forall2 (proc_ok m) Qs (l1 ++ p :: l2) ->
  exists Q1 Q Q2, Qs = Q1 ++ Q :: Q2 /\ Forall2 (proc_ok m) Q1 l1 /\ proc_ok m Q p /\ Forall2 (proc_ok m) Q2 l2.
Proof.
  intros Qs l1 p l2 m F. apply Forall2_app_inv_r in F. destruct F as (Q1 & Q2 & F1 & F2 & ->). inversion F2; subst. eauto 8.
Qed.
Lemma F2_join : forall Q1 Q Q2 l1 p l2 m, Forall2 (proc_ok m) Q1 l1 -> proc_ok m Q p -> Forall2 (proc_ok m) Q2 l2 ->
  Forall2 (proc_ok m) (Q1 ++ Q :: Q2) (l1 ++ p :: l2).
Proof. intros. apply Forall2_app; [assumption|]. now constructor. Qed.
Lemma NoDup_mid : forall (X Y Z : list nat), NoDup (X ++ Y ++ Z) -> NoDup Y /\ (forall a, In a Y -> ~ In a X /\ ~ In a Z).
Proof.
  intros X Y Z N. induction X as [|x X IH]; cbn in *.
  - induction Y as [|y Y IH]; cbn in *; [split; [constructor|easy]|]. inversion N as [|? ? N1 N2]; subst. destruct (IH N2) as [I1 I2]. rewrite in_app_iff in N1.
    split; [constructor; tauto|]. intros a [->|H]; [tauto|]. now apply I2.
  - inversion N as [|? ? N1 N2]; subst. destruct (IH N2) as [I1 I2]. split; [exact I1|]. intros a H. destruct (I2 a H). split; [|assumption].
    intros [->|H']; [|tauto]. rewrite !in_app_iff in N1. tauto.
Qed.

Lemma held_mid : forall pl m l1 h (g : prog A) l2, held (mkSys pl m (l1 ++ mkP h g :: l2)) = flat_map addrs l1 ++ flat_map addr_of h ++ flat_map addrs l2.
Proof. intros. unfold held. cbn [s_procs]. now rewrite flat_map_app. Qed.

Lemma step_ok : forall Qs s s', sys_ok Qs s -> step s s' -> sys_ok Qs s'.
Proof.
  intros Qs s s' [N F] S. destruct S as [pl1 q a pl2 m ps j h k Hj|pl m ps j h q k a c Hj Np Nh|pl m ps j h i q a k Hj Hi|pl m ps j h i q a k Hj Hi|pl m ps j h i q a c k Hj Hi|pl1 x pl2 m ps];
    cbn [s_pool s_mem s_procs] in *; try (destruct (set_nth_split ps j _ Hj) as (l1 & l2 & -> & _ & Es); rewrite Es; clear Es Hj; destruct (F2_split _ _ _ _ _ F) as (Q1 & Q & Q2 & -> & F1 & FQ & F2); rewrite held_mid in N).
  - split; cbn [s_pool s_mem s_procs].
    + rewrite held_mid. rewrite map_app in *. cbn [map snd] in N. rewrite flat_map_app. cbn [flat_map addr_of app].
      refine (Permutation_NoDup _ N). rewrite <- !app_assoc. cbn [app]. rewrite <- Permutation_middle.
      rewrite !app_assoc. apply (Permutation_middle (((map snd pl1 ++ map snd pl2) ++ flat_map addrs l1) ++ flat_map addr_of h) (flat_map addrs l2) a).
    + apply F2_join; [exact F1| |exact F2]. unfold proc_ok in *. cbn [p_held p_prog wp] in *. rewrite map_app. cbn [map]. rewrite map_length in FQ. apply (FQ (m a)).
  - rewrite held_mid, !in_app_iff in Nh. split; cbn [s_pool s_mem s_procs].
    + rewrite held_mid. rewrite flat_map_app. cbn [flat_map addr_of app].
      apply (Permutation_NoDup (l := a :: map snd pl ++ flat_map addrs l1 ++ flat_map addr_of h ++ flat_map addrs l2)).
      * rewrite <- !app_assoc. cbn [app]. rewrite !app_assoc. apply (Permutation_middle ((map snd pl ++ flat_map addrs l1) ++ flat_map addr_of h) (flat_map addrs l2) a).
      * constructor; [rewrite !in_app_iff; tauto|exact N].
    + apply F2_join; [apply procs_other; [tauto|exact F1]| |apply procs_other; [tauto|exact F2]]. unfold proc_ok in *. cbn [p_held p_prog wp] in *. rewrite map_app, look_other by tauto. cbn [map].
      rewrite map_length in FQ. cbn [look option_map snd]. unfold set_mem. rewrite Nat.eqb_refl. apply (FQ c).
  - split; cbn [s_pool s_mem s_procs].
    + rewrite held_mid. cbn [map snd].
      refine (Permutation_NoDup _ N). rewrite (put_addrs h i q a Hi). cbn [app].
      rewrite app_assoc. rewrite <- Permutation_middle. now rewrite <- app_assoc.
    + apply F2_join; [exact F1| |exact F2]. unfold proc_ok in *. cbn [p_held p_prog wp] in *. rewrite look_put. apply FQ.
  - split; cbn [s_pool s_mem s_procs].
    + rewrite held_mid. exact N.
    + apply F2_join; [exact F1| |exact F2]. unfold proc_ok in *. cbn [p_held p_prog wp] in *. destruct FQ as (c & Hc & W).
      rewrite (look_nth m h i _ Hi) in Hc. injection Hc as <-. exact W.
  - assert (X : NoDup (flat_map addr_of h) /\ ~ In a (flat_map addrs l1) /\ ~ In a (flat_map addrs l2)).
    { rewrite app_assoc in N.
      destruct (NoDup_mid _ _ _ N) as [N1 N2]. split; [exact N1|]. destruct (N2 a) as [M1 M2]. { apply in_flat_map. exists (Some (q, a)). split; [eapply nth_error_In; exact Hi|now left]. }
      rewrite in_app_iff in M1. tauto. }
    destruct X as (N1 & N2 & N3). split; cbn [s_pool s_mem s_procs].
    + rewrite held_mid. exact N.
    + apply F2_join; [now apply procs_other| |now apply procs_other]. unfold proc_ok in *. cbn [p_held p_prog wp] in *. rewrite (look_self m a c i q h Hi N1). apply FQ.
  - split; cbn [s_pool s_mem s_procs]; [|exact F]. change (held (mkSys (pl1 ++ x :: pl2) m ps)) with (held (mkSys (pl1 ++ pl2) m ps)) in N.
    rewrite map_app in *. cbn [map] in N. rewrite <- app_assoc in *. cbn [app] in N. now apply NoDup_remove_1 in N.
Qed.

Lemma start_ok : forall pl m Qs ps, NoDup (map snd pl) -> Forall2 (fun Q p => wp [] p (fun _ r => Q r)) Qs ps -> sys_ok Qs (start pl m ps).
Proof.
  intros pl m Qs ps N F. split; cbn.
  - assert (E0 : flat_map addrs (map (@mkP A []) ps) = []) by (clear; induction ps; cbn; auto). unfold held. cbn [s_procs start]. rewrite E0, app_nil_r. exact N.
  - unfold start. cbn. induction F as [|Q p Qs ps X F IH]; cbn; constructor; auto.
Qed.
Lemma steps_ok : forall Qs s s', sys_ok Qs s -> steps s s' -> sys_ok Qs s'.
Proof. intros Qs s s' O S. induction S; [exact O|]. eapply step_ok; [now apply IHS|exact H]. Qed.

Lemma fresh_addr : forall l : list nat, exists a, ~ In a l.
Proof.
  intro l. exists (Datatypes.S (list_max l)). intro H. assert (X : Forall (fun k => k <= list_max l) l) by (apply list_max_le; lia).
  rewrite Forall_forall in X. apply X in H. lia.
Qed.
(** A call that has not ended can go on, by itself, whatever the others do. *)
Lemma proc_steps : forall Qs s, sys_ok Qs s -> forall j h g, nth_error (s_procs s) j = Some (mkP h g) ->
  (exists r, g = Ret r) \/ exists h' g' s', step s s' /\ s_procs s' = set_nth j (mkP h' g') (s_procs s) /\
    match g with Ret _ => False | Get _ k => exists i, g' = k i | Put _ k | Wr _ _ k => g' = k | Rd _ k => exists c, g' = k c end.
Proof.
  intros Qs [pl m ps] [N F] j h g Hj. cbn [s_procs s_mem s_pool] in *.
  destruct (set_nth_split ps j _ Hj) as (l1 & l2 & E0 & _ & _). rewrite E0 in F. destruct (F2_split _ _ _ _ _ F) as (Q1 & Q & Q2 & _ & _ & FQ & _). unfold proc_ok in FQ. cbn [p_held p_prog] in FQ.
  assert (L : forall i c, nth_error (map (look m) h) i = Some (Some c) -> exists q a, nth_error h i = Some (Some (q, a))).
  { intros i c. rewrite nth_error_map. destruct (nth_error h i) as [[[q a]|]|]; cbn; try discriminate. eauto. }
  destruct g as [r|q k|i k|i k|i c k]; [left; eauto| | | |]; right.
  - destruct (fresh_addr (map snd pl ++ held (mkSys pl m ps))) as [a Ha]. rewrite in_app_iff in Ha.
    eexists _, _, _. split; [eapply (s_new pl m ps j h q k a (mkCt [] VUninit VUninit) Hj); tauto|]. split; [reflexivity|eauto].
  - destruct FQ as [[c Hc] _]. destruct (L _ _ Hc) as (q & a & Ha). eexists _, _, _. split; [exact (s_put pl m ps j h i q a k Hj Ha)|]. split; reflexivity.
  - destruct FQ as (c & Hc & _). destruct (L _ _ Hc) as (q & a & Ha). eexists _, _, _. split; [exact (s_read pl m ps j h i q a k Hj Ha)|]. split; [reflexivity|eauto].
  - destruct FQ as [[c' Hc] _]. destruct (L _ _ Hc) as (q & a & Ha). eexists _, _, _. split; [exact (s_write pl m ps j h i q a c k Hj Ha)|]. split; reflexivity.
Qed.

Lemma steps_trans : forall (s1 s2 s3 : sys A), steps s1 s2 -> steps s2 s3 -> steps s1 s3.
Proof. intros s1 s2 s3 H1 H2. induction H2 as [s|s1' s2' s3' H2 IH H]; [exact H1|]. eapply ss_step; [now apply IH|exact H]. Qed.
Lemma set_nth_twice : forall {B} j (x y : B) l, set_nth j y (set_nth j x l) = set_nth j y l.
Proof. intros B j x y l. revert j. induction l as [|z l IH]; intros [|j]; cbn; try reflexivity. now rewrite IH. Qed.
Lemma set_nth_id : forall {B} j (x : B) l, nth_error l j = Some x -> set_nth j x l = l.
Proof. intros B j x l. revert j. induction l as [|z l IH]; intros [|j] H; cbn in *; try discriminate; [congruence|]. now rewrite IH. Qed.

Definition ends Qs (g : prog A) : Prop := forall s h j, sys_ok Qs s -> nth_error (s_procs s) j = Some (mkP h g) ->
  exists s' h' r, steps s s' /\ s_procs s' = set_nth j (mkP h' (Ret r)) (s_procs s).
Lemma ends_step : forall Qs g' s s' j h', sys_ok Qs s -> (j < length (s_procs s))%nat -> step s s' -> s_procs s' = set_nth j (mkP h' g') (s_procs s) ->
  ends Qs g' -> exists s' h' r, steps s s' /\ s_procs s' = set_nth j (mkP h' (Ret r)) (s_procs s).
Proof.
  intros Qs g' s s' j h' O Hj St Es IH. assert (Hj' : nth_error (s_procs s') j = Some (mkP h' g')) by (rewrite Es; now apply set_nth_same).
  destruct (IH s' h' j (step_ok _ _ _ O St) Hj') as (s2 & h2 & r & S2 & E2). exists s2, h2, r. split; [eapply steps_trans; [eapply ss_step; [apply ss_refl|exact St]|exact S2]|].
  rewrite E2, Es. apply set_nth_twice.
Qed.
(** A call can finish by its own operations, wherever the others are. *)
Lemma proc_ends : forall Qs (g : prog A), ends Qs g.
Proof.
  intros Qs g. induction g as [r|q k IH|i k IH|i k IH|i c k IH]; intros s h j O Hj.
  { exists s, h, r. split; [apply ss_refl|]. symmetry. now apply set_nth_id. }
  all: destruct (proc_steps Qs s O j h _ Hj) as [[r X]|(h' & g' & s' & St & Es & Hg)]; [discriminate X|]; cbn in Hg; try destruct Hg as [i' ->]; try subst g'; (eapply ends_step; [exact O|now apply nth_error_lt in Hj|exact St|exact Es|apply IH]).
Qed.
End Sys.
