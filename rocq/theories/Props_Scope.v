(** C52: which type a type name in a .proto file refers to. *)
From Coq Require Import Strings.String Init.Byte Lia.
From Verif Require Import Base GoStr StrFacts GenField GenNames GenSpec NameSpec Scope ScopeSpec ScopeProofs ScopeCheck.
Import StringSyntax.
Open Scope nat_scope.

Definition acyclic (F : nat -> pfile) : Prop :=
  exists rank, forall x b i, In (b, i) (f_imports (F x)) -> rank i < rank x.
Definition legal (F : nat -> pfile) (p : nat) (chain : list (path * mtree)) : Prop :=
  acyclic F /\ unique_names F p /\ nested (f_msgs (F p)) chain.

(** The search differs from the rules of the language.  A name may be taken for another type
    than the one it means: *)
Definition wrong_type (F : nat -> pfile) p chain n : Prop := legal F p chain /\ exists d x q,
  means F p (scope_of F p chain) n d /\ full F x q <> d /\
  forall fuel, 10 <= fuel -> resolve F fuel true p chain false n = RType x q.
(** a type that a name means may not be found: *)
Definition not_found (F : nat -> pfile) p chain n : Prop := legal F p chain /\ exists d,
  means F p (scope_of F p chain) n d /\
  forall fuel, 10 <= fuel -> resolve F fuel true p chain false n = RNotFound.
(** a name that means nothing may be taken for a type: *)
Definition found (F : nat -> pfile) p chain n : Prop := legal F p chain /\
  (forall d, ~ means F p (scope_of F p chain) n d) /\
  exists x q, forall fuel, 10 <= fuel -> resolve F fuel true p chain false n = RType x q.
(** the same for names with a leading dot: *)
Definition dot_not_found (F : nat -> pfile) p chain n : Prop := legal F p chain /\ exists d,
  means_dot F p n d /\
  forall fuel, 10 <= fuel -> resolve F fuel true p chain true n = RNotFound.
Definition dot_found (F : nat -> pfile) p chain n : Prop := legal F p chain /\
  (forall d, ~ means_dot F p n d) /\
  exists x q, forall fuel, 10 <= fuel -> resolve F fuel true p chain true n = RType x q.

Definition one (n : bytes) : mtree := MT n [] [].
Definition file (pkg : path) (ms : list mtree) (imps : list (bool * nat)) : pfile := mkFile pkg [] ms imps.
Definition M := one (bs "M").
Definition T := one (bs "T").
Definition in_M : list (path * mtree) := [([], M)].

(** message M { message M {}  M f = 1; } : M means the inner one *)
Definition MM := MT (bs "M") [] [M].
Definition F_own (i : nat) : pfile := match i with 0 => file [] [MM] [] | _ => file [] [] [] end.
(** package a.b, importing packages a.x and x: x.T means a.x.T *)
Definition F_inner (i : nat) : pfile :=
  match i with
  | 0 => file [bs "a"; bs "b"] [M] [(false, 1); (false, 2)]
  | 1 => file [bs "a"; bs "x"] [T] []
  | 2 => file [bs "x"] [T] []
  | _ => file [] [] []
  end.
(** package a, importing package a.a: a.a.T is taken for a.T *)
Definition F_twice (i : nat) : pfile :=
  match i with
  | 0 => file [bs "a"] [M; T] [(false, 1)]
  | 1 => file [bs "a"; bs "a"] [T] []
  | _ => file [] [] []
  end.
(** package a, importing package a.b: b.T means a.b.T *)
Definition F_sub (i : nat) : pfile :=
  match i with
  | 0 => file [bs "a"] [M] [(false, 1)]
  | 1 => file [bs "a"; bs "b"] [T] []
  | _ => file [] [] []
  end.
(** package a, importing a file without package: T means the T there *)
Definition F_nopkg (i : nat) : pfile :=
  match i with
  | 0 => file [bs "a"] [M] [(false, 1)]
  | 1 => file [] [T] []
  | _ => file [] [] []
  end.
(** package a, importing package b, which imports package c publicly *)
Definition F_public (i : nat) : pfile :=
  match i with
  | 0 => file [bs "a"] [M] [(false, 1)]
  | 1 => file [bs "b"] [] [(true, 2)]
  | 2 => file [bs "c"] [T] []
  | _ => file [] [] []
  end.
(** package a, importing package c publicly: T means nothing there, c.T would *)
Definition F_bare (i : nat) : pfile :=
  match i with
  | 0 => file [bs "a"] [M] [(true, 1)]
  | 1 => file [bs "c"] [T] []
  | _ => file [] [] []
  end.
(** package a, importing package b, and a type of its own *)
Definition F_dot (i : nat) : pfile :=
  match i with
  | 0 => file [bs "a"] [M] [(false, 1)]
  | 1 => file [bs "b"] [T] []
  | _ => file [] [] []
  end.

Ltac rank3 := exists (fun i => 3 - i); intros [|[|[|x]]] b i I; cbn in I; repeat (destruct I as [I|I]; [injection I as <- <-; cbn; lia|]); destruct I.
Ltac legal l := split; [rank3|split; [apply (unique_check_sound _ _ l); vm_compute; reflexivity|apply nested_top; now left]].
Ltac run := let f := fresh "fuel" in let L := fresh "L" in intros f L;
  do 10 (destruct f as [|f]; [lia|]); clear L; vm_compute; reflexivity.
Ltac vis := first [now left | right; eexists _, _; split; [now left|apply pub_refl]
  | right; eexists _, _; split; [right; now left|apply pub_refl]
  | right; eexists _, _; split; [now left|eapply pub_step; [now left|apply pub_refl]]].
Ltac mean l x := apply (means_check_sound _ _ l); [apply (known_by _ _ x); [vis|reflexivity]|vm_compute; reflexivity].

Lemma own_name : wrong_type F_own 0 [([], MM)] [bs "M"].
Proof.
  split; [legal [0]|]. exists (full F_own 0 [bs "M"; bs "M"]), 0, [bs "M"].
  split; [mean [0] 0|]. split; [discriminate|]. run.
Qed.
Lemma inner_package : wrong_type F_inner 0 in_M [bs "x"; bs "T"].
Proof.
  split; [legal [0; 1; 2]|]. exists (full F_inner 1 [bs "T"]), 2, [bs "T"].
  split; [mean [0; 1; 2] 1|]. split; [discriminate|]. run.
Qed.
Lemma package_twice : wrong_type F_twice 0 in_M [bs "a"; bs "a"; bs "T"].
Proof.
  split; [legal [0; 1]|]. exists (full F_twice 1 [bs "T"]), 0, [bs "T"].
  split; [mean [0; 1] 1|]. split; [discriminate|]. run.
Qed.
Lemma sub_package : not_found F_sub 0 in_M [bs "b"; bs "T"].
Proof. split; [legal [0; 1]|]. exists (full F_sub 1 [bs "T"]). split; [mean [0; 1] 1|]. run. Qed.
Lemma no_package : not_found F_nopkg 0 in_M [bs "T"].
Proof. split; [legal [0; 1]|]. exists (full F_nopkg 1 [bs "T"]). split; [mean [0; 1] 1|]. run. Qed.
Lemma public_import : not_found F_public 0 in_M [bs "c"; bs "T"].
Proof. split; [legal [0; 1; 2]|]. exists (full F_public 2 [bs "T"]). split; [mean [0; 1; 2] 2|]. run. Qed.
Lemma bare_name : found F_bare 0 in_M [bs "T"].
Proof.
  split; [legal [0; 1]|]. split.
  - intros d (S & R & E & -> & K & _). revert K.
    assert (I : In S (inits (scope_of F_bare 0 in_M))) by (rewrite E; apply inits_app). clear R E.
    cbn in I. repeat (destruct I as [<-|I]; [apply (knownb_false _ _ [0; 1]); reflexivity|]). destruct I.
  - exists 1, [bs "T"]. run.
Qed.
Lemma dot_other : dot_not_found F_dot 0 in_M [bs "b"; bs "T"].
Proof.
  split; [legal [0; 1]|]. exists (full F_dot 1 [bs "T"]). split; [|run]. split; [reflexivity|].
  apply (known_by _ _ 1); [vis|reflexivity].
Qed.
Lemma dot_relative : dot_found F_dot 0 in_M [bs "M"].
Proof.
  split; [legal [0; 1]|]. split; [|exists 0, [bs "M"]; run].
  intros d (-> & K). revert K. apply (knownb_false _ _ [0; 1]); reflexivity.
Qed.
Theorem C52_refuted :
  wrong_type F_own 0 [([], MM)] [bs "M"] /\ wrong_type F_inner 0 in_M [bs "x"; bs "T"] /\
  wrong_type F_twice 0 in_M [bs "a"; bs "a"; bs "T"] /\
  not_found F_sub 0 in_M [bs "b"; bs "T"] /\ not_found F_nopkg 0 in_M [bs "T"] /\
  not_found F_public 0 in_M [bs "c"; bs "T"] /\ found F_bare 0 in_M [bs "T"] /\
  dot_not_found F_dot 0 in_M [bs "b"; bs "T"] /\ dot_found F_dot 0 in_M [bs "M"].
Proof.
  exact (conj own_name (conj inner_package (conj package_twice (conj sub_package (conj no_package
    (conj public_import (conj bare_name (conj dot_other dot_relative)))))))).
Qed.
Print Assumptions C52_refuted.

(** C52, for the names and files for which the search follows the rules: the type found is the
    one the name means, and nothing is found only if the name means nothing.  Missing, and
    false by C52_refuted: messages with a type of their own name in them, packages with a type
    named like their first component, names that start with a package twice, names relative to
    an outer or to a nested package, types without package in a file with one, and public
    imports across packages. *)
Theorem C52_resolve_partial : forall F rank fuel allow p chain n,
  public_ok F rank -> (forall x, visible F p x -> rank x + length n < fuel) ->
  unique_names F p -> nested (f_msgs (F p)) chain -> no_own_name F p chain -> no_package_name F p ->
  package_once F p n -> local_or_full F p n -> n <> [] -> (allow = true -> ~ scalar n) ->
  match resolve F fuel allow p chain false n with
  | RType x q => visible F p x /\ declares (F x) q /\ means F p (scope_of F p chain) n (full F x q)
  | RNotFound => forall d, ~ means F p (scope_of F p chain) n d
  | RScalar => False
  end.
Proof. exact resolve_means. Qed.
Print Assumptions C52_resolve_partial.

(** With a leading dot, for names that start with the package of the file. *)
Theorem C52_dot_partial : forall F rank fuel allow p chain n,
  public_ok F rank -> (forall x, visible F p x -> rank x + length n < fuel) ->
  no_package_name F p -> package_once F p n -> n <> [] ->
  (f_pkg (F p) = [] \/ exists r, r <> [] /\ n = f_pkg (F p) ++ r) ->
  (forall x q, visible F p x -> declares (F x) q -> full F x q = n -> f_pkg (F x) = f_pkg (F p)) ->
  match resolve F fuel allow p chain true n with
  | RType x q => visible F p x /\ declares (F x) q /\ means_dot F p n (full F x q)
  | RNotFound => forall d, ~ means_dot F p n d
  | RScalar => False
  end.
Proof. exact resolve_dot. Qed.
Print Assumptions C52_dot_partial.

(** A name means at most one type, so that "the" is right. *)
Theorem C52_unique : forall F p scope n d d', means F p scope n d -> means F p scope n d' -> d = d'.
Proof. exact means_fun. Qed.
Print Assumptions C52_unique.

(** Scalars are scalars wherever they are allowed, whatever messages are called. *)
Theorem C52_scalar : forall F fuel p chain n, resolve F fuel true p chain false n = RScalar <-> scalar n.
Proof.
  intros F fuel p chain n. rewrite <- scalar_test. unfold resolve. cbn [andb negb].
  destruct (match n with [s] => existsb (str_eqb s) _ | _ => false end) eqn:E; [split; reflexivity|].
  split; [|discriminate]. destruct (search_messages chain n); [discriminate|].
  destruct (first_some _ _) as [[x t]|]; discriminate.
Qed.
Print Assumptions C52_scalar.

(** The hypotheses are met by a file in package a.b with two levels of messages, importing a
    file of its package, which publicly imports another, and a file of package c; the names
    Inner, Outer.Inner, c.T, a.b.U and U mean what they say. *)
Definition F_ok (i : nat) : pfile :=
  match i with
  | 0 => mkFile [bs "a"; bs "b"] [] [MT (bs "Outer") [bs "E"] [MT (bs "Inner") [] [one (bs "Deep")]]; one (bs "Inner")] [(false, 1); (false, 3)]
  | 1 => mkFile [bs "a"; bs "b"] [bs "V"] [] [(true, 2)]
  | 2 => mkFile [bs "a"; bs "b"] [] [one (bs "U")] []
  | 3 => mkFile [bs "c"] [] [T] []
  | _ => file [] [] []
  end.
Definition chain_ok : list (path * mtree) :=
  [([bs "Outer"], MT (bs "Inner") [] [one (bs "Deep")]); ([], MT (bs "Outer") [bs "E"] [MT (bs "Inner") [] [one (bs "Deep")]])].
Lemma visible_ok : forall x, visible F_ok 0 x -> In x [0; 1; 2; 3].
Proof. apply closed_visible. reflexivity. Qed.
Example C52_ex_hyps : forall n, In n [[bs "Inner"]; [bs "Outer"; bs "Inner"]; [bs "c"; bs "T"]; [bs "a"; bs "b"; bs "U"]; [bs "U"]] ->
  public_ok F_ok (fun i => 3 - i) /\ (forall x, visible F_ok 0 x -> 3 - x + length n < 10) /\ unique_names F_ok 0 /\
  nested (f_msgs (F_ok 0)) chain_ok /\ no_own_name F_ok 0 chain_ok /\ no_package_name F_ok 0 /\
  package_once F_ok 0 n /\ local_or_full F_ok 0 n /\ n <> [] /\ ~ scalar n.
Proof.
  intros n IN.
  assert (D : forall x q, visible F_ok 0 x -> declares (F_ok x) q -> In (x, q) (flat_map (fun x => map (fun q => (x, q)) (fpaths (F_ok x))) [0; 1; 2; 3])).
  { intros x q V D. apply in_flat_map. exists x. split; [now apply visible_ok|]. apply in_map_iff. exists q. split; [reflexivity|]. now apply paths_complete. }
  assert (E : forall f : nat * path -> bool, forallb f (flat_map (fun x => map (fun q => (x, q)) (fpaths (F_ok x))) [0; 1; 2; 3]) = true ->
     forall x q, visible F_ok 0 x -> declares (F_ok x) q -> f (x, q) = true).
  { intros f H x q V DD. rewrite forallb_forall in H. apply H. now apply D. }
  split; [|split; [|split; [|split; [|split; [|split; [|split; [|split; [|split]]]]]]]].
  - intros [|[|[|[|x]]]] i I; cbn in I.
    + destruct I as [I|[I|[]]]; discriminate.
    + destruct I as [I|[]]. injection I as <-. split; [reflexivity|cbn; lia].
    + destruct I.
    + destruct I.
    + destruct I.
  - intros x V. apply visible_ok in V. cbn in V. assert (length n <= 3); [|lia].
    cbn in IN. repeat (destruct IN as [<-|IN]; [cbn; lia|]). destruct IN.
  - apply (unique_check_sound _ _ [0; 1; 2; 3]). vm_compute. reflexivity.
  - apply (nested_in _ [] (bs "Outer")); [apply nested_top; now left|now left].
  - intros q x es ms I D0. cbn in I. destruct I as [I|[I|[]]]; injection I as <- <- <- <-;
      apply paths_complete in D0; vm_compute in D0; repeat (destruct D0 as [D0|D0]; [discriminate|]); destruct D0.
  - intros x a r V P D0.
    assert (K := E (fun y => match f_pkg (F_ok (fst y)) with [] => true | c :: _ => negb (path_eqb [c] (snd y)) end) eq_refl x [a] V D0).
    cbn [fst snd] in K. rewrite P in K. cbn in K. destruct (str_eqb_spec a a); [discriminate|congruence].
  - intros x r V _ H. apply visible_ok in V. cbn in V. destruct V as [<-|[<-|[<-|[<-|[]]]]]; cbn in IN, H; subst n;
      repeat (destruct IN as [IN|IN]; [discriminate IN|]); destruct IN.
  - intros S R x q PK V D0 FE. apply D in D0; [|exact V]. vm_compute in D0.
    assert (IS : In S (inits [bs "a"; bs "b"])) by (change [bs "a"; bs "b"] with (f_pkg (F_ok 0)); rewrite PK; apply inits_app).
    cbn in IS. clear PK.
    repeat (destruct D0 as [D0|D0]; [injection D0 as <- <-; cbn in IN;
      repeat (destruct IS as [<-|IS]; [repeat (destruct IN as [<-|IN]; [try discriminate FE; first [left; split; reflexivity|right; split; [reflexivity|discriminate]]|]); now destruct IN|]); now destruct IS|]).
    destruct D0.
  - cbn in IN. repeat (destruct IN as [<-|IN]; [discriminate|]). destruct IN.
  - intros H. apply scalar_test in H. cbn in IN. repeat (destruct IN as [<-|IN]; [vm_compute in H; discriminate|]). destruct IN.
Qed.
Example C52_ex :
  map (fun n => match resolve F_ok 10 true 0 chain_ok false n with RType x q => Some (full F_ok x q) | _ => None end)
    [[bs "Inner"]; [bs "Outer"; bs "Inner"]; [bs "c"; bs "T"]; [bs "a"; bs "b"; bs "U"]; [bs "U"]; [bs "E"]; [bs "Deep"]] =
  [Some [bs "a"; bs "b"; bs "Outer"; bs "Inner"]; Some [bs "a"; bs "b"; bs "Outer"; bs "Inner"]; Some [bs "c"; bs "T"];
   Some [bs "a"; bs "b"; bs "U"]; Some [bs "a"; bs "b"; bs "U"]; Some [bs "a"; bs "b"; bs "Outer"; bs "E"];
   Some [bs "a"; bs "b"; bs "Outer"; bs "Inner"; bs "Deep"]].
Proof. vm_compute. reflexivity. Qed.
