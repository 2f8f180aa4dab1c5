(** The search for a type among the objects of the loader is the search of Scope.v. *)
From Coq Require Import List Arith Bool ZArith Lia Strings.String Init.Byte.
From Verif Require Import Base GoStr StrFacts GenField GenNames GenSpec NameSpec Scope ScopeSpec Listen ListenSpec ListenProofs Compile CompileSpec CompileProofs.
Import ListNotations StringSyntax.
Local Open Scope string_scope.
Local Open Scope list_scope.
Open Scope nat_scope.

Definition agree {A B} (R : A -> B -> Prop) (x : option A) (y : option B) : Prop :=
  match x, y with Some a, Some b => R a b | None, None => True | _, _ => False end.
Lemma agree_weaken {A B} (R S : A -> B -> Prop) x y : (forall a b, R a b -> S a b) -> agree R x y -> agree S x y.
Proof. destruct x, y; cbn; auto. Qed.
Lemma first_agree {A A' B B'} (R : B -> B' -> Prop) (f : A -> option B) (g : A' -> option B') l l' :
  Forall2 (fun a a' => agree R (f a) (g a')) l l' -> agree R (first_some f l) (first_some g l').
Proof.
  induction 1 as [|a a' l l' H T IH]; cbn; [exact I|]. destruct (f a), (g a'); cbn in H; try contradiction; auto.
Qed.
Lemma first_map {A B C} (h : A -> B) (g : B -> option C) l : first_some g (map h l) = first_some (fun x => g (h x)) l.
Proof. induction l as [|x l IH]; cbn; [reflexivity|]. destruct (g (h x)); auto. Qed.
Lemma Forall2_in {A B} (P Q : A -> B -> Prop) l m : Forall2 P l m -> (forall x y, In x l -> P x y -> Q x y) -> Forall2 Q l m.
Proof. induction 1 as [|x y l m H T IH]; intros K; constructor; [apply K; [now left|exact H]|]. apply IH. intros a b J. apply K. now right. Qed.
Lemma Forall2_same {A} (P : A -> A -> Prop) l : (forall x, P x x) -> Forall2 P l l.
Proof. intros H. induction l; constructor; auto. Qed.
Definition tname (t : tmsg) : bytes := match t with TM n _ _ _ _ _ _ => n end.

Section Files.
Variables (F : nat -> state) (imports : nat -> list (bool * nat)) (T : nat -> tfile).
Hypothesis Sh : forall p, shows_file (F p) (T p).
Definition P (p : nat) : pfile := pfile_of (T p) (imports p).

Lemma enums_agree p (st := F p) pr js es name b : Forall2 (shows_enum st pr) js es ->
  (forall j e, In j js -> nth_error (l_enums st) j = Some e -> obj_at p st (OEnum p j) (b ++ [er_name e])) ->
  agree (fun o q => obj_at p st o (b ++ q)) (enum_named F p name js) (find_enum (map te_name es) name).
Proof.
  intros H O. unfold enum_named, find_enum. destruct name as [|n [|]]; try exact I. rewrite first_map. apply first_agree.
  eapply Forall2_in; [exact H|]. intros j t J Hj. unfold shows_enum in Hj. fold st. rewrite Hj. cbn [er_name]. destruct (str_eqb (te_name t) n); cbn; [|exact I].
  exact (O _ _ J Hj).
Qed.
Lemma get_agree p (st := F p) name : forall t i pr b, shows_msg st pr i t -> obj_at p st (OMsg p i) (b ++ [tname t]) ->
  agree (fun o q => obj_at p st o (b ++ q)) (get_msg F p name i) (msg_getType (mtree_of t) name).
Proof.
  induction name as [|x rest IH]; intros t i pr b H O.
  - inversion H; subst; cbn. exact I.
  - inversion H as [pr' i' n fs os es ms oo rr ei mi En He Hm]; subst. cbn [tname] in O. cbn [get_msg mtree_of msg_getType]. fold st. rewrite En. cbn [mr_name mr_enums mr_msgs].
    cbn [path_eqb]. unfold trimPathPrefix. cbn [trim_prefix]. destruct (str_eqb_spec n x) as [<-|D].
    + rewrite str_eqb_refl. cbn [andb]. destruct rest as [|y rest]; cbn [path_eqb trim_prefix]; [exact O|].
      pose proof (enums_agree p (Some i) ei es (y :: rest) (b ++ [n]) He) as A.
      assert (Q : forall j e, In j ei -> nth_error (l_enums st) j = Some e -> obj_at p st (OEnum p j) ((b ++ [n]) ++ [er_name e]))
        by (intros j e J E; eapply oa_sub_enum; [exact O|exact En|exact J|exact E]).
      specialize (A Q). fold st in A. destruct (enum_named F p (y :: rest) ei) as [o|], (find_enum (map te_name es) (y :: rest)) as [q|]; cbn in A; try contradiction.
      * cbn. rewrite <- app_assoc in A. exact A.
      * rewrite first_map.
        assert (B : agree (fun o q => obj_at p st o ((b ++ [n]) ++ q)) (first_some (get_msg F p (y :: rest)) mi) (first_some (fun t => msg_getType (mtree_of t) (y :: rest)) ms)).
        { apply first_agree. eapply Forall2_in; [exact Hm|]. intros k t J Hk. apply (IH t k (Some i)); [exact Hk|].
          inversion Hk as [? ? n0 ? ? ? ? ? ? ? ? Ek]; subst. exact (oa_sub p st i _ _ k _ O En J Ek). }
        destruct (first_some (get_msg F p (y :: rest)) mi) as [o|], (first_some (fun t => msg_getType (mtree_of t) (y :: rest)) ms) as [q|]; cbn in B; try contradiction; cbn; [|exact I].
        rewrite <- app_assoc in B. exact B.
    + cbn [andb]. destruct (str_eqb_spec x n) as [->|]; [now destruct D|]. exact I.
Qed.
Lemma top_msgs p name : agree (obj_at p (F p)) (first_some (get_msg F p name) (p_msgs (F p))) (first_some (fun m => msg_getType m name) (f_msgs (P p))).
Proof.
  destruct (Sh p) as (_ & _ & _ & _ & Hm & _). cbn [P pfile_of f_msgs]. rewrite first_map. apply first_agree. eapply Forall2_in; [exact Hm|].
  intros i t J Hi. apply (get_agree p name t i None []); [exact Hi|]. inversion Hi as [? ? n0 ? ? ? ? ? ? ? ? Ek]; subst. exact (oa_msg p (F p) i _ J Ek).
Qed.
Lemma top_enums p name : agree (obj_at p (F p)) (enum_named F p name (p_enums (F p))) (find_enum (f_enums (P p)) name).
Proof.
  destruct (Sh p) as (_ & _ & _ & _ & _ & He & _). apply (enums_agree p None (p_enums (F p)) (tf_enums (T p)) name []); [exact He|].
  intros j e J E. cbn [app]. now apply oa_enum.
Qed.
Definition R (o : obj) (x : nat * path) : Prop := file_of_obj o = fst x /\ obj_at (fst x) (F (fst x)) o (snd x).
Lemma obj_file p st o q : obj_at p st o q -> file_of_obj o = p.
Proof. destruct 1; reflexivity. Qed.
Lemma file_agree k : forall p name, agree R (get_file F imports k p name) (proto_getType P k p name).
Proof.
  induction k as [|k IH]; intros p name; [exact I|]. cbn [get_file proto_getType].
  pose proof (top_msgs p name) as A. destruct (first_some (get_msg F p name) (p_msgs (F p))) as [o|], (first_some (fun m => msg_getType m name) (f_msgs (P p))) as [q|]; cbn in A; try contradiction.
  { split; [eapply obj_file, A|exact A]. }
  pose proof (top_enums p name) as B. destruct (enum_named F p name (p_enums (F p))) as [o|], (find_enum (f_enums (P p)) name) as [q|]; cbn in B; try contradiction.
  { split; [eapply obj_file, B|exact B]. }
  assert (C : agree R (first_some (fun x : bool * nat => if fst x then get_file F imports k (snd x) name else None) (imports p))
                      (first_some (fun i : bool * nat => if fst i then proto_getType P k (snd i) name else None) (f_imports (P p)))).
  { apply first_agree. cbn [P pfile_of f_imports]. apply Forall2_same. intros [[] y]; cbn [fst snd]; [apply IH|exact I]. }
  destruct (first_some _ (imports p)) as [o|], (first_some _ (f_imports (P p))) as [q|]; cbn in C; try contradiction; [exact C|].
  assert (E : package F p = f_pkg (P p)) by (unfold package; destruct (Sh p) as (_ & -> & _); reflexivity).
  rewrite E. destruct (trimPathPrefix name (f_pkg (P p))); [apply IH|exact I].
Qed.
Lemma searched_same p dot name : searched F imports p dot name = search_files P p dot name.
Proof.
  assert (E : forall p, package F p = f_pkg (P p)) by (intros x; unfold package; destruct (Sh x) as (_ & -> & _); reflexivity).
  unfold searched, search_files. cbn [P pfile_of f_imports f_pkg]. f_equal. f_equal.
  - f_equal. apply filter_ext. intros x. now rewrite !E.
  - destruct dot; [reflexivity|]. f_equal. apply filter_ext. intros x. now rewrite !E.
Qed.

(** The messages around *)
Hypothesis Lt : forall p, in_lists_later (F p).
Lemma chain_agree p (st := F p) i : reached st i -> exists pr t q chain,
  shows_msg st pr i t /\ nested (f_msgs (P p)) ((q, mtree_of t) :: chain) /\ obj_at p st (OMsg p i) (q ++ [tname t]) /\ length chain <= i /\
  forall k name, length chain < k -> agree (obj_at p st) (search_around F k p i name) (search_messages ((q, mtree_of t) :: chain) name).
Proof.
  assert (Step : forall pr i t q chain k name, shows_msg st pr i t -> obj_at p st (OMsg p i) (q ++ [tname t]) ->
    agree (obj_at p st) (match pr with Some j => search_around F k p j name | None => None end) (search_messages chain name) ->
    agree (obj_at p st) (search_around F (S k) p i name) (search_messages ((q, mtree_of t) :: chain) name)).
  { intros pr i0 t q chain k name H O A. pose proof (get_agree p name t i0 pr q H O) as G.
    inversion H as [pr' i' n fs os es ms oo rr ei mi En He Hm]; subst. cbn [search_around mtree_of search_messages]. fold st. rewrite En. cbn [mtree_of] in G. fold st in G.
    destruct (get_msg F p name i0) as [o|], (msg_getType _ name) as [r|]; cbn in G; try contradiction; [exact G|]. cbn [mr_enums mr_msgs mr_parent tname] in *.
    pose proof (enums_agree p (Some i0) ei es name (q ++ [n]) He) as B.
    assert (Q : forall j e, In j ei -> nth_error (l_enums st) j = Some e -> obj_at p st (OEnum p j) ((q ++ [n]) ++ [er_name e]))
      by (intros j e J E; eapply oa_sub_enum; [exact O|exact En|exact J|exact E]).
    specialize (B Q). fold st in B. destruct (enum_named F p name ei) as [o|], (find_enum (map te_name es) name) as [r|]; cbn in B; try contradiction.
    { cbn. rewrite <- app_assoc in B. exact B. }
    assert (C : agree (fun o r => obj_at p st o ((q ++ [n]) ++ r)) (first_some (get_msg F p name) mi) (first_some (fun m => msg_getType m name) (map mtree_of ms))).
    { rewrite first_map. apply first_agree. eapply Forall2_in; [exact Hm|]. intros k0 t J Hk. apply (get_agree p name t k0 (Some i0)); [exact Hk|].
      inversion Hk as [? ? n0 ? ? ? ? ? ? ? ? Ek]; subst. exact (oa_sub p st i0 _ _ k0 _ O En J Ek). }
    destruct (first_some (get_msg F p name) mi) as [o|], (first_some (fun m => msg_getType m name) (map mtree_of ms)) as [r|]; cbn in C; try contradiction.
    { cbn. rewrite <- app_assoc in C. exact C. }
    exact A. }
  destruct (Sh p) as (_ & _ & _ & _ & Hm & _). induction 1 as [i J|j m i Rj IH Ej J].
  - assert (X : exists t, In t (tf_msgs (T p)) /\ shows_msg st None i t).
    { clear - Hm J. fold st in Hm, J. induction Hm as [|a b l l' H Hl IHl]; [destruct J|]. destruct J as [<-|J]; [exists b; split; [now left|exact H]|].
      destruct (IHl J) as (t & I0 & H0). exists t. split; [now right|exact H0]. }
    destruct X as (t & It & Ht). exists None, t, [], [].
    assert (O : obj_at p st (OMsg p i) ([] ++ [tname t])) by (inversion Ht as [? ? n0 ? ? ? ? ? ? ? ? Ek]; subst; exact (oa_msg p st i _ J Ek)).
    split; [exact Ht|]. split; [apply nested_top; cbn [P pfile_of f_msgs]; now apply in_map|]. split; [exact O|]. split; [cbn; lia|].
    intros [|k] name L; [cbn in L; lia|]. eapply Step; [exact Ht|exact O|exact I].
  - destruct IH as (pr & t & q & chain & Hj & Nc & Oj & Lc & Aj). inversion Hj as [pr' i' n fs os es ms oo rr ei mi En He Hms]; subst.
    rewrite En in Ej. injection Ej as <-. cbn [mr_msgs] in J.
    assert (X : exists u, In u ms /\ shows_msg st (Some j) i u).
    { clear - Hms J. induction Hms as [|a b l l' H Hl IHl]; [destruct J|]. destruct J as [<-|J]; [exists b; split; [now left|exact H]|].
      destruct (IHl J) as (t & I0 & H0). exists t. split; [now right|exact H0]. }
    destruct X as (u & Iu & Hu). cbn [tname mtree_of] in *.
    assert (O : obj_at p st (OMsg p i) ((q ++ [n]) ++ [tname u])) by (inversion Hu as [? ? n0 ? ? ? ? ? ? ? ? Ek]; subst; exact (oa_sub p st j _ _ i _ Oj En J Ek)).
    exists (Some j), u, (q ++ [n]), ((q, MT n (map te_name es) (map mtree_of ms)) :: chain).
    split; [exact Hu|]. split; [apply nested_in; [exact Nc|now apply in_map]|]. split; [exact O|].
    pose proof (Lt p _ _ En) as Lj. cbn [mr_msgs] in Lj. rewrite Forall_forall in Lj. specialize (Lj _ J). split; [cbn; lia|].
    intros [|k] name L; [cbn in L; lia|]. eapply Step; [exact Hu|exact O|]. apply Aj. cbn in L. lia.
Qed.

(** Names of scalars *)
Lemma components_one s n : components s = [n] -> n = s.
Proof.
  revert n. induction s as [|c s IH]; intros n; cbn; [intros E; injection E as <-; reflexivity|].
  destruct (beqb c x2e); [destruct s as [|d s]; [discriminate|]; cbn; destruct (beqb d x2e); [discriminate|destruct (components s); discriminate]|].
  destruct (components s) as [|x l] eqn:E; [|destruct l; [|discriminate]; intros H; injection H as <-; f_equal; now apply IH].
  intros H. exfalso. clear - E. destruct s as [|d s]; [discriminate|]. cbn in E. destruct (beqb d x2e); [discriminate|destruct (components s); discriminate].
Qed.
Definition no_dot (s : bytes) : bool := forallb (fun c => negb (beqb c x2e)) s.
Lemma components_no_dot s : no_dot s = true -> components s = [s].
Proof.
  induction s as [|c s IH]; [reflexivity|]. cbn. destruct (beqb c x2e); [discriminate|]. cbn. intros H. rewrite IH by exact H. reflexivity.
Qed.
Lemma scalar_first s : match scalar_of s with
  | Some _ => existsb (str_eqb s) [bs "double"; bs "float"; bs "int32"; bs "int64"; bs "uint32"; bs "uint64"; bs "sint32"; bs "sint64";
        bs "fixed32"; bs "fixed64"; bs "sfixed32"; bs "sfixed64"; bs "bool"; bs "string"; bs "bytes"] = true /\ no_dot s = true
  | None => existsb (str_eqb s) [bs "double"; bs "float"; bs "int32"; bs "int64"; bs "uint32"; bs "uint64"; bs "sint32"; bs "sint64";
        bs "fixed32"; bs "fixed64"; bs "sfixed32"; bs "sfixed64"; bs "bool"; bs "string"; bs "bytes"] = false
  end.
Proof.
  unfold scalar_of, scalar_names. cbn [first_some fst snd].
  repeat match goal with |- context[if str_eqb ?a s then _ else _] => destruct (str_eqb_spec a s) as [<-|?]; [split; vm_compute; reflexivity|] end.
  cbn [existsb]. repeat match goal with |- context[str_eqb s ?a] => destruct (str_eqb_spec s a) as [->|?]; [congruence|] end. reflexivity.
Qed.
Lemma scalar_agree (b : bool) s : match (if b then scalar_of s else None) with Some _ => true | None => false end =
  b && negb (fst (type_name s)) && match snd (type_name s) with [n] => existsb (str_eqb n)
       [bs "double"; bs "float"; bs "int32"; bs "int64"; bs "uint32"; bs "uint64"; bs "sint32"; bs "sint64";
        bs "fixed32"; bs "fixed64"; bs "sfixed32"; bs "sfixed64"; bs "bool"; bs "string"; bs "bytes"] | _ => false end.
Proof.
  destruct b; [|reflexivity]. cbn [andb]. pose proof (scalar_first s) as H. destruct (scalar_of s) as [x|].
  - destruct H as [H D]. assert (E : type_name s = (false, [s])).
    { unfold type_name. destruct s as [|c s]; [reflexivity|]. rewrite (components_no_dot (c :: s) D). cbn in D. destruct (beqb c x2e); [discriminate|reflexivity]. }
    rewrite E. cbn [fst snd negb andb]. now rewrite H.
  - unfold type_name. destruct s as [|c s]; [reflexivity|]. destruct (beqb c x2e) eqn:Ec; [reflexivity|]. cbn [fst snd negb andb].
    destruct (components (c :: s)) as [|n [|]] eqn:E; try reflexivity. apply components_one in E. subst n. now rewrite H.
Qed.
Lemma resolve_agree fuel b p i s : reached (F p) i -> exists chain,
  nested (f_msgs (P p)) chain /\ (exists q n es ms r, chain = (q, MT n es ms) :: r /\ obj_at p (F p) (OMsg p i) (q ++ [n])) /\ 
  same_result F (resolve_type F imports fuel b p (Some i) s) (resolve P fuel b p chain (fst (type_name s)) (snd (type_name s))).
Proof.
  intros Ri. destruct (chain_agree p i Ri) as (pr & t & q & chain & Hs & Nc & O & Lc & A). exists ((q, mtree_of t) :: chain).
  split; [exact Nc|]. split; [destruct t as [n fs os es ms oo rr]; cbn in *; do 5 eexists; split; [reflexivity|exact O]|].
  unfold resolve_type, resolve. rewrite <- scalar_agree. destruct (if b then scalar_of s else None); [exact I|].
  destruct (type_name s) as [dot name]. cbn [fst snd].
  assert (Li : length chain < length (l_msgs (F p))) by (inversion Hs as [? ? n0 ? ? ? ? ? ? ? ? Ek]; subst; apply nth_error_lt in Ek; lia).
  assert (X : agree (obj_at p (F p)) (if dot then None else search_around F (length (l_msgs (F p))) p i name) (if dot then None else search_messages ((q, mtree_of t) :: chain) name))
    by (destruct dot; [exact I|now apply A]).
  destruct (if dot then None else search_around _ _ _ _ _) as [o|], (if dot then None else search_messages _ _) as [r|]; cbn in X; try contradiction.
  - split; [eapply obj_file, X|exact X].
  - rewrite searched_same. assert (G : agree R (first_some (fun x => get_file F imports fuel x name) (search_files P p dot name)) (first_some (fun x => proto_getType P fuel x name) (search_files P p dot name))).
    { apply first_agree, Forall2_same. intros x. apply file_agree. }
    destruct (first_some (fun x => get_file F imports fuel x name) _) as [o|], (first_some (fun x => proto_getType P fuel x name) _) as [[x r]|]; cbn in G; try contradiction; [exact G|exact I].
Qed.
Lemma resolve_method fuel b p s :
  same_result F (resolve_type F imports fuel b p None s) (resolve P fuel b p [] (fst (type_name s)) (snd (type_name s))).
Proof.
  unfold resolve_type, resolve. rewrite <- scalar_agree. destruct (if b then scalar_of s else None); [exact I|].
  destruct (type_name s) as [dot name]. cbn [fst snd search_messages]. replace (if dot then None else @None obj) with (@None obj) by now destruct dot.
  replace (if dot then None else @None path) with (@None path) by now destruct dot. rewrite searched_same.
  assert (G : agree R (first_some (fun x => get_file F imports fuel x name) (search_files P p dot name)) (first_some (fun x => proto_getType P fuel x name) (search_files P p dot name))).
  { apply first_agree, Forall2_same. intros x. apply file_agree. }
  destruct (first_some (fun x => get_file F imports fuel x name) _) as [o|], (first_some (fun x => proto_getType P fuel x name) _) as [[x r]|]; cbn in G; try contradiction; [exact G|exact I].
Qed.
End Files.

(** One path for each object *)
Lemma NoDup_flat_map_one {A} (f : A -> list nat) l : NoDup (flat_map f l) -> forall i j a b x,
  nth_error l i = Some a -> nth_error l j = Some b -> In x (f a) -> In x (f b) -> i = j.
Proof.
  induction l as [|c l IH]; intros N i j a b x Ei Ej Ia Ib; [destruct i; discriminate|]. cbn in N.
  assert (D : forall y, In y (f c) -> ~ In y (flat_map f l)).
  { intros y Iy Iz. clear - N Iy Iz. induction (f c) as [|z m IHm]; [destruct Iy|]. cbn in N. inversion N as [|? ? N1 N2]; subst.
    destruct Iy as [->|Iy]; [apply N1, in_app_iff; auto|auto]. }
  assert (M : NoDup (flat_map f l)) by (clear - N; induction (f c) as [|z m IHm]; [exact N|]; inversion N; auto).
  destruct i as [|i], j as [|j]; cbn in Ei, Ej; [reflexivity| | |f_equal; eauto].
  - injection Ei as <-. destruct (D x Ia). apply in_flat_map. exists b. split; [eapply nth_error_In, Ej|exact Ib].
  - injection Ej as <-. destruct (D x Ib). apply in_flat_map. exists a. split; [eapply nth_error_In, Ei|exact Ia].
Qed.
Lemma NoDup_app_apart {A} (l m : list A) : NoDup (l ++ m) -> NoDup m /\ forall x, In x l -> ~ In x m.
Proof.
  induction l as [|a l IH]; cbn; intros N; [split; [exact N|intros x []]|]. inversion N as [|? ? N1 N2]; subst. destruct (IH N2) as [A1 A2].
  split; [exact A1|]. intros x [<-|Ix]; [intros K; apply N1, in_app_iff; auto|now apply A2].
Qed.
Lemma one_path p st : listed_once st -> forall ob q q', obj_at p st ob q -> obj_at p st ob q' -> q = q'.
Proof.
  intros [Pm Pe]. assert (Nm : NoDup (p_msgs st ++ flat_map mr_msgs (l_msgs st))) by (eapply Permutation.Permutation_NoDup; [apply Permutation.Permutation_sym, Pm|apply seq_NoDup]).
  assert (Ne : NoDup (p_enums st ++ flat_map mr_enums (l_msgs st))) by (eapply Permutation.Permutation_NoDup; [apply Permutation.Permutation_sym, Pe|apply seq_NoDup]).
  destruct (NoDup_app_apart _ _ Nm) as [Nm1 Nm2]. destruct (NoDup_app_apart _ _ Ne) as [Ne1 Ne2].
  intros ob q q' H. revert q'. induction H as [i m J E|j e J E|i q m k n H IH E J Ek|i q m j e H IH E J Ej]; intros q' H'.
  - inversion H' as [i' m' J' E'| |i' r m' k' n' Hr E' J' Ek'|]; subst; [congruence|]. destruct (Nm2 i J). apply in_flat_map. exists m'. split; [eapply nth_error_In, E'|exact J'].
  - inversion H' as [|j' e' J' E'| |i' r m' j' e' Hr E' J' Ej']; subst; [congruence|]. destruct (Ne2 j J). apply in_flat_map. exists m'. split; [eapply nth_error_In, E'|exact J'].
  - inversion H' as [i' m' J' E'| |i' r m' k' n' Hr E' J' Ek'|]; subst.
    + destruct (Nm2 k J'). apply in_flat_map. exists m. split; [eapply nth_error_In, E|exact J].
    + pose proof (NoDup_flat_map_one _ _ Nm1 _ _ _ _ _ E E' J J') as ->. rewrite (IH _ Hr). congruence.
  - inversion H' as [|j' e' J' E'| |i' r m' j' e' Hr E' J' Ej']; subst.
    + destruct (Ne2 j J'). apply in_flat_map. exists m. split; [eapply nth_error_In, E|exact J].
    + pose proof (NoDup_flat_map_one _ _ Ne1 _ _ _ _ _ E E' J J') as ->. rewrite (IH _ Hr). congruence.
Qed.
