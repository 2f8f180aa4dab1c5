(** Deciding the hypotheses of ScopeSpec on concrete files, for the examples. *)
From Coq Require Import Strings.String Init.Byte Lia Arith.
From Verif Require Import Base GoStr StrFacts GenField GenNames GenSpec NameSpec Scope ScopeSpec ScopeProofs.
Open Scope nat_scope.

Fixpoint mpaths (m : mtree) : list path :=
  match m with MT n es ms => [n] :: map (cons n) (map (fun e => [e]) es ++ flat_map mpaths ms) end.
Definition paths (es : list bytes) (ms : list mtree) : list path := map (fun e => [e]) es ++ flat_map mpaths ms.
Lemma paths_complete : forall q es ms, decl es ms q -> In q (paths es ms).
Proof.
  induction q as [|x q IH]; intros es ms D; [now apply declared_not_nil in D|].
  unfold paths. apply in_or_app. unfold decl in D. rewrite in_scope_iff in D.
  destruct D as [([n es' sub] & I & K)|(e & I & ->)]; [right|left].
  - apply in_flat_map. exists (MT n es' sub). split; [exact I|]. cbn [mpaths in_msg] in *.
    destruct K as [->|(r & K & D)]; [now left|right]. injection K as -> ->. apply in_map. now apply IH.
  - apply in_map_iff. now exists e.
Qed.
Lemma paths_sound : forall q es ms, In q (paths es ms) -> decl es ms q.
Proof.
  induction q as [|x q IH]; intros es ms D; unfold paths in D; apply in_app_or in D; unfold decl; rewrite in_scope_iff.
  - exfalso. destruct D as [D|D]; [apply in_map_iff in D as (e & D & _); discriminate|].
    apply in_flat_map in D as ([n es' sub] & _ & D). cbn [mpaths] in D. destruct D as [D|D]; [discriminate|].
    apply in_map_iff in D as (r & D & _). discriminate.
  - destruct D as [D|D].
    + right. apply in_map_iff in D as (e & D & I). exists e. auto.
    + left. apply in_flat_map in D as ([n es' sub] & I & D). exists (MT n es' sub). split; [exact I|].
      cbn [mpaths in_msg] in *. destruct D as [D|D]; [left; now symmetry|right].
      apply in_map_iff in D as (r & D & J). injection D as -> ->. exists q. split; [reflexivity|]. now apply IH.
Qed.
Definition fpaths (f : pfile) : list path := paths (f_enums f) (f_msgs f).

Fixpoint nodupb (l : list bytes) : bool :=
  match l with [] => true | x :: r => negb (existsb (str_eqb x) r) && nodupb r end.
Lemma nodupb_sound : forall l, nodupb l = true -> NoDup l.
Proof.
  induction l as [|x l IH]; intros H; [constructor|]. cbn in H. apply andb_prop in H as [A B]. constructor; [|now apply IH].
  intros I. apply Bool.negb_true_iff in A. assert (K : existsb (str_eqb x) l = true); [|congruence].
  apply existsb_exists. exists x. split; [exact I|]. destruct (str_eqb_spec x x); congruence.
Qed.
Fixpoint dnb (m : mtree) : bool :=
  match m with MT _ es ms => nodupb es && nodupb (map (fun m => match m with MT n _ _ => n end) ms) && forallb dnb ms end.
Lemma dnb_sound : forall m, dnb m = true -> match m with MT _ es ms => distinct_names es ms end.
Proof.
  fix IH 1. intros [n es ms]. cbn [dnb]. intros H. apply andb_prop in H as [H C]. apply andb_prop in H as [A B].
  constructor; [now apply nodupb_sound|now apply nodupb_sound|]. clear A B. revert C.
  induction ms as [|m ms IHm]; intros C n' es' sub I; [destruct I|]. cbn in C. apply andb_prop in C as [C1 C2].
  destruct I as [E|I]; [specialize (IH m C1); rewrite E in IH; exact IH|now apply (IHm C2 n')].
Qed.

Section Files.
Variable F : nat -> pfile.
Variable p : nat.
Variable l : list nat.

Definition closed : bool := existsb (Nat.eqb p) l && forallb (fun x => forallb (fun i => existsb (Nat.eqb (snd i)) l) (f_imports (F x))) l.
Lemma closed_visible : closed = true -> forall x, visible F p x -> In x l.
Proof.
  intros C. unfold closed in C. apply andb_prop in C as [C1 C2].
  assert (K : forall x, existsb (Nat.eqb x) l = true -> In x l).
  { intros x H. apply existsb_exists in H as (y & I & E). apply Nat.eqb_eq in E. now subst. }
  assert (ST : forall x b i, In x l -> In (b, i) (f_imports (F x)) -> In i l).
  { intros x b i I J. rewrite forallb_forall in C2. specialize (C2 x I). rewrite forallb_forall in C2. apply K. now apply (C2 (b, i)). }
  assert (PU : forall x y, pub F x y -> In x l -> In y l).
  { induction 1 as [x|x i y I P IH]; [auto|]. intros J. apply IH. now apply (ST x true). }
  apply K in C1. intros x [->|(b & i & I & P)]; [exact C1|]. apply (PU i x P). now apply (ST p b).
Qed.

Definition pairs : list (nat * path) := flat_map (fun x => map (fun q => (x, f_pkg (F x) ++ q)) (fpaths (F x))) l.
Lemma in_pairs : forall x q, In x l -> declares (F x) q -> In (x, full F x q) pairs.
Proof.
  intros x q I D. apply in_flat_map. exists x. split; [exact I|]. apply in_map_iff. exists q. split; [reflexivity|]. now apply paths_complete.
Qed.
Fixpoint is_prefix (a b : path) : bool :=
  match a, b with [] , _ => true | x :: a', y :: b' => str_eqb x y && is_prefix a' b' | _, _ => false end.
Lemma is_prefix_app : forall a b, is_prefix a (a ++ b) = true.
Proof. induction a as [|x a IH]; intros b; [reflexivity|]. cbn. rewrite IH. now destruct (str_eqb_spec x x). Qed.
Definition unique_check : bool :=
  closed && forallb (fun x => dnb (MT [] (f_enums (F x)) (f_msgs (F x)))) l &&
  forallb (fun a => forallb (fun b => Nat.eqb (fst a) (fst b) || negb (path_eqb (snd a) (snd b))) pairs) pairs &&
  forallb (fun a => forallb (fun y => negb (is_prefix (snd a) (f_pkg (F y)))) l) pairs.
Lemma unique_check_sound : unique_check = true -> unique_names F p.
Proof.
  unfold unique_check. intros H. apply andb_prop in H as [H C]. apply andb_prop in H as [H B]. apply andb_prop in H as [H A].
  assert (V := closed_visible H). rewrite forallb_forall in A, B, C. split; [|split].
  - intros x VX. exact (dnb_sound _ (A x (V x VX))).
  - intros x y q r VX VY DX DY E. specialize (B _ (in_pairs x q (V x VX) DX)). rewrite forallb_forall in B.
    specialize (B _ (in_pairs y r (V y VY) DY)). cbn [fst snd] in B. apply Bool.orb_true_iff in B as [B|B]; [now apply Nat.eqb_eq in B|].
    exfalso. apply path_eqb_iff in E. rewrite E in B. discriminate.
  - intros x y q s VX VY DX E. specialize (C _ (in_pairs x q (V x VX) DX)). rewrite forallb_forall in C.
    specialize (C y (V y VY)). cbn [snd] in C. rewrite E, is_prefix_app in C. discriminate.
Qed.
Definition knownb (d : path) : bool := existsb (fun a => path_eqb (snd a) d) pairs.
Lemma knownb_false : forall d, closed = true -> knownb d = false -> ~ known F p d.
Proof.
  intros d C K (x & q & VX & D & ->). apply (closed_visible C) in VX. apply (in_pairs x q VX) in D.
  assert (K' : knownb (full F x q) = true); [|congruence]. apply existsb_exists. exists (x, full F x q). split; [exact D|]. now apply path_eqb_iff.
Qed.

Fixpoint inits (s : path) : list path := match s with [] => [[]] | x :: r => [] :: map (cons x) (inits r) end.
Lemma inits_app : forall a b, In a (inits (a ++ b)).
Proof. induction a as [|x a IH]; intros b; cbn; [destruct b; now left|]. right. now apply in_map. Qed.
Definition means_check (scope n d : path) : bool :=
  closed && existsb (fun S => path_eqb d (S ++ n) && forallb (fun S' => Nat.leb (length S') (length S) || negb (knownb (S' ++ n))) (inits scope)) (inits scope).
Lemma inits_inv : forall s a, In a (inits s) -> exists b, s = a ++ b.
Proof.
  induction s as [|x s IH]; intros a H; cbn in H.
  - destruct H as [<-|[]]. now exists [].
  - destruct H as [<-|H]; [now exists (x :: s)|]. apply in_map_iff in H as (a' & <- & H). destruct (IH a' H) as (b & ->). now exists b.
Qed.
Lemma means_check_sound : forall scope n d, known F p d -> means_check scope n d = true -> means F p scope n d.
Proof.
  intros scope n d K H. unfold means_check in H. apply andb_prop in H as [C H]. apply existsb_exists in H as (S & I & H).
  apply andb_prop in H as [E H]. apply path_eqb_iff in E. destruct (inits_inv _ _ I) as (T & ES).
  exists S, T. repeat split; [exact ES|exact E|exact K|]. intros S' T' ES' L KK.
  rewrite forallb_forall in H. assert (I' : In S' (inits scope)) by (rewrite ES'; apply inits_app).
  specialize (H _ I'). apply Bool.orb_true_iff in H as [H|H]; [apply Nat.leb_le in H; lia|].
  apply Bool.negb_true_iff in H. now apply (knownb_false _ C) in H.
Qed.
Lemma known_by : forall x q, visible F p x -> existsb (path_eqb q) (fpaths (F x)) = true -> known F p (full F x q).
Proof.
  intros x q V H. apply existsb_exists in H as (q' & I & E). apply path_eqb_iff in E. subst q'. exists x, q.
  split; [exact V|]. split; [now apply paths_sound|reflexivity].
Qed.
End Files.
