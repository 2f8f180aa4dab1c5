(** C48: files are resolved dependencies first. *)
From Coq Require Import ZArith Lia Permutation.
From Verif Require Import Base Load LoadSpec LoadProofs.
Open Scope nat_scope.

Lemma topo_rank : forall imports l, topo imports l -> exists rank : nat -> nat,
  (forall x, In x l -> rank x < length l) /\ forall x y, In x l -> In y (imports x) -> rank y < rank x.
Proof.
  intros imports l T. induction T as [|l z T (rank & B & R) IN NI]; [exists (fun _ => 0); split; intros x; [intros []|intros y []]|].
  exists (fun x => if Nat.eqb x z then length l else rank x). rewrite app_length. cbn [length].
  assert (NE : forall x, In x l -> Nat.eqb x z = false) by (intros x I; apply Nat.eqb_neq; intros ->; now apply NI).
  split.
  - intros x I. apply in_app_or in I as [I|[<-|[]]]; [rewrite (NE x I); specialize (B x I); lia|rewrite Nat.eqb_refl; lia].
  - intros x y I J. apply in_app_or in I as [I|[<-|[]]].
    + rewrite (NE x I), (NE y (topo_closed imports l T x y I J)). now apply R.
    + rewrite Nat.eqb_refl, (NE y (IN y J)). apply B, IN, J.
Qed.

(** C48: LoadProto ends.  If some file needed imports itself, directly or not, it stops with
    the error that says so.  Otherwise it returns the files needed, each once, the one asked
    for first, and every file before the files it imports, so that the reverse order, in which
    they are resolved, has the imports of a file before it. *)
Theorem C48_load : forall imports U f fuel, universe imports U f -> length U < fuel ->
  match LoadProto imports fuel f with
  | LOk r => ~ cyclic imports f /\ NoDup r /\ (forall x, In x r <-> reaches imports f x) /\ (exists l, r = f :: l) /\
      (forall x y, In x r -> In y (imports x) -> before r x y /\ before (resolve_order r) y x)
  | LCyclic _ => cyclic imports f
  | LFuel => False
  end.
Proof.
  intros imports U f fuel (IU & CU) L. unfold LoadProto.
  destruct (loadProto imports fuel [] [] f) as [ps|st|] eqn:E.
  - assert (P0 : pre imports [] [] []).
    { constructor; [constructor|constructor|intros x; cbn; tauto|intros x []]. }
    destruct (load_ok imports fuel [] [] [] f ps P0 E) as ((l & g & -> & P & R & IN) & HD).
    cbn [app] in *. destruct HD as [[]|(l' & ->)]. destruct P as [ND T PI _].
    assert (PI' : forall x, In x (f :: l') <-> In x g) by (intros x; rewrite PI; cbn; tauto). clear PI.
    assert (RCH : forall x, In x (f :: l') <-> reaches imports f x).
    { intros x. split; [apply R|]. intros H. apply PI'. exact (topo_reaches imports g T f x H IN). }
    assert (CL : forall x y, In x (f :: l') -> In y (imports x) -> In y (f :: l')).
    { intros x y I J. apply PI'. apply (topo_closed imports g T x y); [now apply PI'|exact J]. }
    destruct (topo_rank imports g T) as (rank & _ & RK).
    assert (LE : length (f :: l') <= fuel).
    { assert (length (f :: l') <= length U); [|lia]. apply NoDup_incl_length; [exact ND|]. intros x I. apply RCH in I.
      clear - I IU CU. induction I as [x|x y z J K IH]; [exact IU|]. apply IH. now apply (CU x). }
    destruct (sort_spec imports (f :: l') ND CL rank fuel) as (r & S & PM & ORD); [|exact LE|].
    { intros x y I J. apply RK; [now apply PI'|exact J]. }
    rewrite S.
    assert (BEF : forall x y, In x r -> In y (imports x) -> before r x y).
    { intros x y I J. assert (IX := Permutation_in x (Permutation_sym PM) I).
      assert (IY := Permutation_in y PM (CL x y IX J)). apply in_split in IY as (a & b & EQ).
      assert (K := ORD a y b EQ x IX J). apply in_split in K as (a1 & a2 & ->). exists a1, a2, b. rewrite EQ, <- app_assoc. reflexivity. }
    split; [|split; [|split; [|split]]].
    + intros (x & y & RX & J & RY). apply (topo_acyclic imports g T x); [now apply PI', RCH|]. exists y. auto.
    + now apply (Permutation_NoDup PM).
    + intros x. rewrite <- RCH. split; apply Permutation_in; [now symmetry|exact PM].
    + destruct r as [|x r]; [apply Permutation_length in PM; discriminate|]. exists r. f_equal.
      assert (IX : In x (f :: l')) by (apply (Permutation_in x (Permutation_sym PM)); now left).
      apply RCH in IX. destruct (Nat.eq_dec f x) as [->|N]; [reflexivity|exfalso].
      assert (exists w, reaches imports f w /\ In x (imports w)) as (w & RW & JW).
      { clear - IX N. induction IX as [x|x y z J K IH]; [congruence|].
        destruct (Nat.eq_dec y z) as [->|NE]; [exists x; split; [apply reaches_self|exact J]|].
        destruct (IH NE) as (w & A & B). exists w. split; [eapply reaches_via; eassumption|exact B]. }
      apply RCH in RW. exact (ORD [] x r eq_refl w RW JW).
    + intros x y I J. assert (B := BEF x y I J). split; [exact B|]. destruct B as (a & b & c & ->). unfold resolve_order.
      exists (rev c), (rev b), (rev a). rewrite rev_app_distr. cbn [rev]. rewrite rev_app_distr. cbn [rev].
      rewrite <- !app_assoc. reflexivity.
  - apply load_cyclic in E as (x & R & y & J & K); [|intros z []]. exists x, y. auto.
  - apply (load_fuel imports U CU fuel [] [] f); [exact IU|constructor|intros x []|cbn; lia|exact E].
Qed.
Print Assumptions C48_load.

(** sortProtoFiles by itself: any list of files that contains their imports, in any order, if
    the imports are acyclic. *)
Theorem C48_sort : forall imports pp rank fuel, NoDup pp -> (forall x y, In x pp -> In y (imports x) -> In y pp) ->
  (forall x y, In x pp -> In y (imports x) -> rank y < rank x) -> length pp <= fuel ->
  exists r, sortProtoFiles imports fuel pp = Some r /\ Permutation pp r /\
    forall x y, In x pp -> In y (imports x) -> before r x y.
Proof.
  intros imports pp rank fuel ND CL RK L. destruct (sort_spec imports pp ND CL rank fuel RK L) as (r & S & PM & ORD).
  exists r. split; [exact S|]. split; [exact PM|]. intros x y IX J.
  assert (IY := Permutation_in y PM (CL x y IX J)). apply in_split in IY as (a & b & EQ).
  assert (K := ORD a y b EQ x IX J). apply in_split in K as (a1 & a2 & ->). exists a1, a2, b. rewrite EQ, <- app_assoc. reflexivity.
Qed.
Print Assumptions C48_sort.

(** A diamond with a double import: 0 imports 1 and 2, which both import 3, 2 twice and 2
    also 1; and a cycle. *)
Definition diamond (x : nat) : list nat := match x with 0 => [1; 2] | 1 => [3] | 2 => [3; 1; 3] | _ => [] end.
Example C48_ex : LoadProto diamond 10 0 = LOk [0; 2; 1; 3] /\ universe diamond [0; 1; 2; 3] 0.
Proof.
  split; [vm_compute; reflexivity|]. split; [now left|]. intros [|[|[|x]]] y I J; cbn in *; repeat (destruct J as [<-|J]; [tauto|]); destruct J.
Qed.
Example C48_ex_cyclic : LoadProto (fun x => match x with 0 => [1] | 1 => [2] | 2 => [1] | _ => [] end) 10 0 = LCyclic [0; 1; 2].
Proof. vm_compute. reflexivity. Qed.
