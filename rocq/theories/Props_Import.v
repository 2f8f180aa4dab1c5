(** Property theorems about the Go packages, references and imports of generated files. *)
From Coq Require Import Lia Sorting.Permutation Sorting.Sorted Strings.String Init.Byte.
From Verif Require Import Base GoStr StrFacts GenField GenSpec GenNames NameSpec NameProofs GenEnum GenPkg Scope ScopeSpec ScopeProofs GenImport ImportSpec WriterSpec ImportProofs WriterProofs.
Import StringSyntax.
Open Scope N_scope.

Definition strconv : bytes := bs "strconv".
Definition prutal : bytes := bs "github.com/cloudwego/prutal".

(** The package references in the text of a file. *)
Definition use_texts (F : nat -> pfile) (G : nat -> gopkg) (fuel p : nat) (u : use) : list bytes :=
  match u with
  | UseStrconv => [bs "strconv.Itoa"]                                   (* code.go:177 *)
  | UsePrutal => [bs "prutal.MarshalAppend"; bs "prutal.Unmarshal"]     (* code.go:220-221 *)
  | UseRef r => match type_GoName F G fuel p r with Some s => [s] | None => [] end   (* code.go:355 *)
  end.
Definition texts (F : nat -> pfile) (G : nat -> gopkg) (fuel p : nat) (us : list use) : list bytes :=
  flat_map (use_texts F G fuel p) us.

(** The packages the file may import. *)
Definition importable (F : nat -> pfile) (G : nat -> gopkg) (p : nat) (us : list use) (q : bytes) : Prop :=
  (q = strconv /\ In UseStrconv us) \/ (q = prutal /\ In UsePrutal us) \/
  (q <> gp_import (G p) /\ exists x, visible F p x /\ q = gp_import (G x)).

(** [clause q]: the name in the package clause of the package with import path q. *)
Record packages (F : nat -> pfile) (G : nat -> gopkg) (clause : bytes -> bytes) (p : nat) (us : list use) : Prop := {
  pk_clause : forall x, visible F p x -> clause (gp_import (G x)) = gp_name (G x);
  pk_std : clause strconv = bs "strconv" /\ clause prutal = bs "prutal";
  pk_names : forall x, visible F p x -> package_name (gp_name (G x)) /\ Forall path_char (gp_import (G x));
  pk_legal : forall x q, declares (F x) q -> Forall proto_name q;
  pk_home : ~ importable F G p us (gp_import (G p));
  pk_refs : forall r, In (UseRef r) us -> nested (f_msgs (F p)) (r_chain r)
}.
(** The text of the imports of a file: [m] lists the packages in any order, [srt] is any sorting
    algorithm. *)
Definition written (F : nat -> pfile) (G : nat -> gopkg) (fuel p : nat) (us : list use) (t : bytes) : Prop :=
  exists srt grouping m, is_sort srt /\ Permutation (file_pkgs F G fuel p us) m /\ t = genImports srt grouping m.

Ltac chars := repeat (apply Forall_cons; [vm_compute; tauto|]); apply Forall_nil.

(** C64.  The references of a file mean the types they are written for, and the imports are
    accepted by the compiler. *)
Definition references_ok (F : nat -> pfile) (G : nat -> gopkg) (clause : bytes -> bytes) (fuel p : nat) (us : list use) (l : list import) : Prop :=
  imports_ok clause (gp_import (G p)) l (texts F G fuel p us) /\
  forall r y t, In (UseRef r) us -> resolve F fuel true p (r_chain r) (r_dot r) (r_name r) = RType y t ->
    exists s, type_GoName F G fuel p r = Some s /\ refers clause (gp_import (G p)) l s (gp_import (G y)) (go_path t).

Theorem C64_imports_partial : forall F G clause fuel p us, packages F G clause p us ->
  (forall x, visible F p x -> gp_name (G x) = path_Base (gp_import (G x))) ->
  (forall q q', importable F G p us q -> importable F G p us q' -> clause q = clause q' -> q = q') ->
  (forall x i, In (true, i) (f_imports (F x)) -> gp_import (G i) = gp_import (G x)) ->
  (forall r, In (UseRef r) us -> exists y t, resolve F fuel true p (r_chain r) (r_dot r) (r_name r) = RType y t) ->
  forall t, written F G fuel p us t -> exists l, import_decl t l /\ references_ok F G clause fuel p us l.
Proof.
  intros F G clause fuel p us PK BASE DIST PUB RES t (srt & g & m & SRT & PM & ->).
  destruct PK as [CL [CS CP] NM LG HOME NE].
  assert (PUBI : forall x y, pub F x y -> gp_import (G y) = gp_import (G x)).
  { induction 1 as [x|x i y I P IH]; [reflexivity|]. rewrite IH. now apply PUB. }
  assert (VIS : forall r x, In x (search_files F p (r_dot r) (r_name r)) -> visible F p x).
  { intros r x I. apply in_search_files in I as [->|[(b & I & _)|(_ & b & r' & I & _)]]; [now left| |]; right; exists b, x; split; auto; apply pub_refl. }
  (* what a reference looks like *)
  assert (REF : forall r y t, In (UseRef r) us -> resolve F fuel true p (r_chain r) (r_dot r) (r_name r) = RType y t ->
     ident (go_path t) /\
     ((type_p F G fuel p r = None /\ type_GoName F G fuel p r = Some (go_path t) /\ gp_import (G y) = gp_import (G p)) \/
      exists x, type_p F G fuel p r = Some x /\ type_GoName F G fuel p r = Some (clause (gp_import (G x)) ++ [x2e] ++ go_path t) /\
        importable F G p us (gp_import (G x)) /\ gp_import (G y) = gp_import (G x) /\ gp_import (G x) <> [])).
  { intros r y t I R. destruct (resolve_type_p F G fuel p r y t (NE r I) R) as [D C].
    split.
    { apply exported_ident. unfold go_path. apply camel_exported. exists t. split; [|split; [exact (LG y t D)|reflexivity]].
      intros ->. exact (declared_not_nil _ _ D). }
    unfold type_GoName. rewrite R. destruct C as [(E & ->)|(x & IX & P & E)].
    - rewrite E. left. auto.
    - rewrite E. destruct (str_eqb_spec (gp_import (G x)) (gp_import (G p))) as [EQ|NEQ].
      + left. rewrite (PUBI x y P), EQ. auto.
      + right. exists x. split; [reflexivity|]. split; [|split; [|split; [exact (PUBI x y P)|]]].
        * do 2 f_equal. rewrite (CL x (VIS r x IX)). symmetry. exact (BASE x (VIS r x IX)).
        * right. right. split; [exact NEQ|]. exists x. split; [exact (VIS r x IX)|reflexivity].
        * intro Z. destruct (NM x (VIS r x IX)) as [N _]. rewrite (BASE x (VIS r x IX)), Z in N.
          destruct N as ((c & rest & E1 & [E2|E2] & _) & _); injection E1 as <- _; discriminate. }
  assert (KEYS : forall q, In q (map fst m) <-> exists u, In u us /\ In q (use_path F G fuel p u)).
  { intro q. rewrite <- file_keys. split; apply Permutation_in; apply Permutation_map; [now apply Permutation_sym|exact PM]. }
  assert (IMP : forall q, In q (map fst m) -> importable F G p us q).
  { intros q I. apply KEYS in I as (u & I & K). destruct u as [| |r]; cbn [use_path] in K.
    - destruct K as [<-|[]]. left. auto.
    - destruct K as [<-|[]]. right. left. auto.
    - destruct (RES r I) as (y & t & R). destruct (REF r y t I R) as [_ [(E & _)|(x & E & _ & IM & _ & NZ)]]; rewrite E in K; [destruct K|].
      destruct (gp_import (G x)); [congruence|]. destruct K as [<-|[]]. exact IM. }
  assert (POK : Forall path_ok (map fst m)).
  { apply Forall_forall. intros q I. apply IMP in I as [(-> & _)|[(-> & _)|(NEQ & x & V & ->)]].
    - split; [discriminate|]. chars.
    - split; [discriminate|]. chars.
    - destruct (NM x V) as [(N & _) PC]. split; [|exact PC]. intro Z.
      rewrite (BASE x V), Z in N. destruct N as (c & rest & E1 & [E2|E2] & _); injection E1 as <- _; discriminate. }
  assert (NA : no_alias m).
  { unfold no_alias. eapply Permutation_Forall; [exact PM|]. apply file_ok. }
  assert (ND : NoDup (map fst m)) by (eapply Permutation_NoDup; [apply Permutation_map; exact PM|apply file_ok]).
  destruct (genImports_decl srt g m SRT NA POK) as (l & DECL & PL).
  assert (INL : forall i, In i l <-> fst i = None /\ In (snd i) (map fst m)).
  { intros [n q]. cbn. split.
    - intro I. apply (Permutation_in _ PL) in I. apply in_map_iff in I as (q' & E & I). injection E as <- <-. auto.
    - intros [-> I]. apply (Permutation_in _ (Permutation_sym PL)). apply in_map_iff. now exists q. }
  assert (LOC : forall i, In i l -> local clause i = clause (snd i)).
  { intros [n q] I. apply INL in I as [E _]. cbn in E. now subst n. }
  exists l. split; [exact DECL|]. split; [|].
  - split; [|split; [|split]].
    + assert (E : map (local clause) l = map clause (map snd l)) by (rewrite map_map; apply map_ext_in; exact LOC).
      rewrite E. assert (PS : Permutation (map snd l) (map fst m)).
      { rewrite PL, map_map. cbn [snd]. now rewrite map_id. }
      eapply Permutation_NoDup; [apply Permutation_map, Permutation_sym, PS|].
      clear - ND DIST IMP. revert ND IMP. generalize (map fst m) as qs. induction qs as [|q qs IH]; intros ND IMP; [constructor|]. inversion ND; subst. constructor.
      * intro I. apply in_map_iff in I as (q' & E & I). apply H1. rewrite (DIST q q'); [exact I|apply IMP; now left|apply IMP; now right|now symmetry].
      * apply IH; [assumption|]. intros q' I. apply IMP. now right.
    + apply Forall_forall. intros i I. rewrite (LOC i I). apply INL in I as [_ I]. apply IMP in I as [(-> & _)|[(-> & _)|(NEQ & x & V & ->)]].
      * rewrite CS. split; [eexists _, _; split; [reflexivity|]; split; [left; reflexivity|chars]|]. split; [|discriminate].
        intro K. repeat (destruct K as [K|K]; [discriminate K|]). exact K.
      * rewrite CP. split; [eexists _, _; split; [reflexivity|]; split; [left; reflexivity|chars]|]. split; [|discriminate].
        intro K. repeat (destruct K as [K|K]; [discriminate K|]). exact K.
      * rewrite (CL x V). apply NM, V.
    + intro I. apply in_map_iff in I as (i & E & I). apply INL in I as [_ I]. rewrite E in I. apply HOME, IMP, I.
    + intros i I. rewrite (LOC i I). apply INL in I as [_ I]. apply KEYS in I as (u & I & K). unfold texts.
      destruct u as [| |r]; cbn [use_path] in K.
      * destruct K as [<-|[]]. exists (bs "Itoa"). split; [split; [discriminate|chars]|].
        apply in_flat_map. exists UseStrconv. split; [exact I|]. left. change (bs "strconv") with strconv. rewrite CS. reflexivity.
      * destruct K as [<-|[]]. exists (bs "Unmarshal"). split; [split; [discriminate|chars]|].
        apply in_flat_map. exists UsePrutal. split; [exact I|]. right. left. change (bs "github.com/cloudwego/prutal") with prutal. rewrite CP. reflexivity.
      * destruct (RES r I) as (y & t & R). destruct (REF r y t I R) as [ID [(E & _)|(x & E & TX & _ & _ & NZ)]]; rewrite E in K; [destruct K|].
        destruct (gp_import (G x)) eqn:EI; [congruence|]. rewrite <- EI in *. destruct K as [K|[]]. rewrite <- K.
        exists (go_path t). split; [exact ID|]. apply in_flat_map. exists (UseRef r). split; [exact I|]. cbn [use_texts]. rewrite TX. left. reflexivity.
  - intros r y t I R. destruct (REF r y t I R) as [ID [(E & TX & HM)|(x & E & TX & IM & EY & NZ)]].
    + exists (go_path t). split; [exact TX|]. rewrite HM. now apply ref_home.
    + exists (clause (gp_import (G x)) ++ [x2e] ++ go_path t). split; [exact TX|]. rewrite EY.
      assert (II : In (None, gp_import (G x)) l).
      { apply INL. split; [reflexivity|]. cbn. apply KEYS. exists (UseRef r). split; [exact I|]. cbn [use_path]. rewrite E.
        destruct (gp_import (G x)); [congruence|now left]. }
      exact (ref_import clause (gp_import (G p)) l (None, gp_import (G x)) (go_path t) II ID).
Qed.
Print Assumptions C64_imports_partial.

(** A case: a file of package a imports files of packages b and c, and file 3 of package b of the
    same Go package as 1 through 1. *)
Definition file (pkg : Scope.path) (ms : list bytes) (imps : list (bool * nat)) : pfile :=
  mkFile pkg [] (map (fun n => MT n [] []) ms) imps.
Definition F_case (i : nat) : pfile :=
  match i with
  | 0%nat => file [bs "a"] [bs "M"] [(false, 1%nat); (false, 2%nat)]
  | 1%nat => file [bs "b"] [bs "T"] [(true, 3%nat)]
  | 2%nat => file [bs "c"] [bs "T"] []
  | 3%nat => file [bs "b"] [bs "U"] []
  | _ => file [] [] []
  end.
Definition gp (s : bytes) : gopkg := go_package None (Some s).
Definition G_case (i : nat) : gopkg :=
  match i with
  | 0%nat => gp (bs "example.com/a")
  | 2%nat => gp (bs "example.com/x/c")
  | _ => gp (bs "example.com/b")
  end.
Definition ref (ns : Scope.path) : tref := mkRef [] false ns.
Definition in_msg (ns : Scope.path) : tref := mkRef [([], MT (bs "M") [] [])] false ns.
Definition us_case : list use :=
  [UsePrutal; UseRef (in_msg [bs "b"; bs "T"]); UseRef (in_msg [bs "b"; bs "U"]); UseRef (in_msg [bs "c"; bs "T"]);
   UseRef (in_msg [bs "M"]); UseStrconv].
Definition by_name (i : nat) (q : bytes) (n : bytes) (d : bytes -> bytes) : bytes -> bytes :=
  fun x => if str_eqb x q then n else d x.

Ltac vis V :=
  let I := fresh "I" in let P := fresh "P" in
  unfold visible in V; destruct V as [->|(?b & ?i & I & P)];
  [|cbn in I; repeat (destruct I as [I|I]; [injection I as <- <-|]); try contradiction;
    repeat match goal with P : pub _ _ _ |- _ => inversion P; clear P; subst; cbn in *;
      repeat match goal with I : _ \/ _ |- _ => destruct I as [I|I]; [injection I as <-|]; try contradiction | I : False |- _ => destruct I end;
      try discriminate; try contradiction end].
Lemma declares_flat : forall pkg ms imps q, declares (file pkg ms imps) q -> exists n, In n ms /\ q = [n].
Proof.
  intros pkg ms imps q [D|D]; cbn in D.
  - inversion D as [? n es sub I|? n es sub r I D2]; subst; apply in_map_iff in I as (x & E & I); injection E as <- <- <-.
    + now exists x.
    + exfalso. inversion D2 as [? n es sub J|? n es sub r' J D3]; destruct J.
  - exfalso. inversion D as [? ? e I|? ? n es' sub r I D2]; subst; [destruct I|]. apply in_map_iff in I as (x & E & I). injection E as <- <- <-.
    inversion D2 as [? ? e J|? ? n es' sub r' J D3]; destruct J.
Qed.
Lemma one_letter : forall c, is_upper c = true \/ is_lower c = true -> proto_name [c].
Proof. intros c H. exists c, []. split; [reflexivity|]. split; [left; unfold letter; tauto|constructor]. Qed.
Ltac pkg_name := split; [eexists _, _; split; [reflexivity|]; split; [left; reflexivity|chars]|split; [let K := fresh "K" in intro K; repeat (destruct K as [K|K]; [discriminate K|]); exact K|discriminate]].
Ltac legal_flat D := let n := fresh "n" in let I := fresh "I" in apply declares_flat in D as (n & I & ->); cbn in I; repeat (destruct I as [<-|I]; [constructor; [apply one_letter; vm_compute; tauto|constructor]|]); destruct I.

Lemma visible_case : forall x, visible F_case 0 x -> (x = 0 \/ x = 1 \/ x = 2 \/ x = 3)%nat.
Proof. intros x V. vis V; auto. Qed.
Example C64_imports_case : packages F_case G_case path_Base 0 us_case /\
  (forall x, visible F_case 0 x -> gp_name (G_case x) = path_Base (gp_import (G_case x))) /\
  (forall q q', importable F_case G_case 0 us_case q -> importable F_case G_case 0 us_case q' -> path_Base q = path_Base q' -> q = q') /\
  (forall x i, In (true, i) (f_imports (F_case x)) -> gp_import (G_case i) = gp_import (G_case x)) /\
  (forall r, In (UseRef r) us_case -> exists y t, resolve F_case 10 true 0 (r_chain r) (r_dot r) (r_name r) = RType y t) /\
  texts F_case G_case 10 0 us_case = map bs ["prutal.MarshalAppend"; "prutal.Unmarshal"; "b.T"; "b.U"; "c.T"; "M"; "strconv.Itoa"]%string.
Proof.
  split; [|split; [|split; [|split; [|split]]]].
  - constructor.
    + intros x V. apply visible_case in V as [->|[->|[->| ->]]]; reflexivity.
    + split; reflexivity.
    + intros x V. apply visible_case in V as [->|[->|[->| ->]]]; (split; [pkg_name|chars]).
    + intros x q D. destruct x as [|[|[|[|x]]]]; cbn in D; legal_flat D.
    + intros [(E & _)|[(E & _)|(N & _)]]; [discriminate|discriminate|apply N; reflexivity].
    + intros r I. repeat (destruct I as [I|I]; [try discriminate I; injection I as <-; cbn; apply nested_top; now left|]). destruct I.
  - intros x V. apply visible_case in V as [->|[->|[->| ->]]]; reflexivity.
  - assert (K : forall q, importable F_case G_case 0 us_case q -> q = strconv \/ q = prutal \/ q = bs "example.com/b" \/ q = bs "example.com/x/c").
    { intros q [(-> & _)|[(-> & _)|(N & x & V & ->)]]; auto. apply visible_case in V as [->|[->|[->| ->]]]; [exfalso; apply N; reflexivity|right; right; left; reflexivity|right; right; right; reflexivity|right; right; left; reflexivity]. }
    intros q q' H H' E. apply K in H as [->|[->|[->| ->]]]; apply K in H' as [->|[->|[->| ->]]]; try reflexivity; vm_compute in E; discriminate E.
  - intros x i I. destruct x as [|[|[|[|x]]]]; cbn in I; repeat (destruct I as [I|I]; [try discriminate I; injection I as <-; reflexivity|]); destruct I.
  - intros r I. repeat (destruct I as [I|I]; [try discriminate I; injection I as <-; eexists _, _; vm_compute; reflexivity|]). destruct I.
  - vm_compute. reflexivity.
Qed.

(** Without these hypotheses references go wrong, although every name in the .proto files is
    resolved and every package has a legal name. *)
Lemma written_imports : forall F G fuel p us t l, Forall path_ok (map fst (file_pkgs F G fuel p us)) ->
  written F G fuel p us t -> import_decl t l -> Permutation l (map (fun q => (None, q)) (map fst (file_pkgs F G fuel p us))).
Proof.
  intros F G fuel p us t l OK (srt & g & m & SRT & PM & ->) D.
  assert (NA : no_alias m) by (unfold no_alias; eapply Permutation_Forall; [exact PM|apply file_ok]).
  assert (POK : Forall path_ok (map fst m)) by (eapply Permutation_Forall; [apply Permutation_map; exact PM|exact OK]).
  destruct (genImports_decl srt g m SRT NA POK) as (l' & D' & P'). rewrite (decl_unique _ _ _ D D'), P'.
  apply Permutation_map, Permutation_map, Permutation_sym, PM.
Qed.
Definition wrong_reference (F : nat -> pfile) (G : nat -> gopkg) (clause : bytes -> bytes) (us : list use) : Prop :=
  packages F G clause 0 us /\
  (forall r, In (UseRef r) us -> exists y t, resolve F 10 true 0 (r_chain r) (r_dot r) (r_name r) = RType y t) /\
  forall t l, written F G 10 0 us t -> import_decl t l -> ~ references_ok F G clause 10 0 us l.

(** option go_package = "example.com/foo;bar" *)
Definition F_two (i : nat) : pfile :=
  match i with
  | 0%nat => file [bs "a"] [bs "M"] [(false, 1%nat)]
  | 1%nat => file [bs "b"] [bs "T"] []
  | _ => file [] [] []
  end.
Definition G_renamed (i : nat) : gopkg :=
  match i with 0%nat => gp (bs "example.com/a") | _ => gp (bs "example.com/foo;bar") end.
Definition clause_renamed (q : bytes) : bytes := if str_eqb q (bs "example.com/foo") then bs "bar" else path_Base q.
(** Two packages with the same last element: example.com/b/v1 and example.com/c/v1 *)
Definition F_three (i : nat) : pfile :=
  match i with
  | 0%nat => file [bs "a"] [bs "M"] [(false, 1%nat); (false, 2%nat)]
  | 1%nat => file [bs "b"] [bs "T"] []
  | 2%nat => file [bs "c"] [bs "T"] []
  | _ => file [] [] []
  end.
Definition G_same (i : nat) : gopkg :=
  match i with 0%nat => gp (bs "example.com/a") | 1%nat => gp (bs "example.com/b/v1") | _ => gp (bs "example.com/c/v1") end.
(** A type that a file of another Go package imports publicly *)
Definition F_public (i : nat) : pfile :=
  match i with
  | 0%nat => file [bs "a"] [bs "M"] [(false, 1%nat)]
  | 1%nat => file [bs "b"] [bs "U"] [(true, 2%nat)]
  | 2%nat => file [bs "b"] [bs "T"] []
  | _ => file [] [] []
  end.
Definition G_public (i : nat) : gopkg :=
  match i with 0%nat => gp (bs "example.com/a") | 1%nat => gp (bs "example.com/old") | _ => gp (bs "example.com/new") end.

Theorem C64_refuted :
  wrong_reference F_two G_renamed clause_renamed [UseRef (ref [bs "b"; bs "T"])] /\
  wrong_reference F_three G_same path_Base [UseRef (ref [bs "b"; bs "T"]); UseRef (ref [bs "c"; bs "T"])] /\
  wrong_reference F_public G_public path_Base [UseRef (ref [bs "b"; bs "T"])].
Proof.
  assert (DOT : forall n, ident n -> ~ In x2e n).
  { intros n [_ H] I. rewrite Forall_forall in H. apply H in I. destruct I as [I|[I|[I|I]]]; discriminate. }
  split; [|split]; (split; [|split]).
  - assert (V2 : forall x, visible F_two 0 x -> (x = 0 \/ x = 1)%nat) by (intros x V; vis V; auto).
    constructor.
    + intros x V. apply V2 in V as [->| ->]; reflexivity.
    + split; reflexivity.
    + intros x V. apply V2 in V as [->| ->]; (split; [pkg_name|chars]).
    + intros x q D. destruct x as [|[|x]]; cbn in D; legal_flat D.
    + intros [(E & _)|[(E & _)|(N & _)]]; [discriminate|discriminate|apply N; reflexivity].
    + intros r [I|[]]. injection I as <-. constructor.
  - intros r [I|[]]. injection I as <-. eexists _, _. vm_compute. reflexivity.
  - intros t l W D [_ REF]. apply (written_imports _ _ _ _ _ _ l) in W; [|vm_compute; repeat (apply Forall_cons; [split; [discriminate|chars]|]); apply Forall_nil|exact D].
    vm_compute in W. apply Permutation_sym, Permutation_length_1_inv in W. subst l.
    destruct (REF (ref [bs "b"; bs "T"]) 1%nat [bs "T"] (or_introl eq_refl) ltac:(vm_compute; reflexivity)) as (s & E & R).
    vm_compute in E. injection E as <-. inversion R as [n I|i n II ID E1 E2].
    destruct II as [<-|[]]. vm_compute in E1. discriminate E1.
  - assert (V2 : forall x, visible F_three 0 x -> (x = 0 \/ x = 1 \/ x = 2)%nat) by (intros x V; vis V; auto).
    constructor.
    + intros x V. apply V2 in V as [->|[->| ->]]; reflexivity.
    + split; reflexivity.
    + intros x V. apply V2 in V as [->|[->| ->]]; (split; [pkg_name|chars]).
    + intros x q D. destruct x as [|[|[|x]]]; cbn in D; legal_flat D.
    + intros [(E & _)|[(E & _)|(N & _)]]; [discriminate|discriminate|apply N; reflexivity].
    + intros r [I|[I|[]]]; injection I as <-; constructor.
  - intros r [I|[I|[]]]; injection I as <-; eexists _, _; vm_compute; reflexivity.
  - intros t l W D [(ND & _) _]. apply (written_imports _ _ _ _ _ _ l) in W; [|vm_compute; repeat (apply Forall_cons; [split; [discriminate|chars]|]); apply Forall_nil|exact D].
    apply (Permutation_map (local path_Base)) in W. apply (Permutation_NoDup W) in ND. vm_compute in ND.
    inversion ND as [|? ? N _]. apply N. now left.
  - assert (V2 : forall x, visible F_public 0 x -> (x = 0 \/ x = 1 \/ x = 2)%nat) by (intros x V; vis V; auto).
    constructor.
    + intros x V. apply V2 in V as [->|[->| ->]]; reflexivity.
    + split; reflexivity.
    + intros x V. apply V2 in V as [->|[->| ->]]; (split; [pkg_name|chars]).
    + intros x q D. destruct x as [|[|[|x]]]; cbn in D; legal_flat D.
    + intros [(E & _)|[(E & _)|(N & _)]]; [discriminate|discriminate|apply N; reflexivity].
    + intros r [I|[]]; injection I as <-; constructor.
  - intros r [I|[]]; injection I as <-; eexists _, _; vm_compute; reflexivity.
  - intros t l W D [_ REF]. apply (written_imports _ _ _ _ _ _ l) in W; [|vm_compute; repeat (apply Forall_cons; [split; [discriminate|chars]|]); apply Forall_nil|exact D].
    vm_compute in W. apply Permutation_sym, Permutation_length_1_inv in W. subst l.
    destruct (REF (ref [bs "b"; bs "T"]) 2%nat [bs "T"] (or_introl eq_refl) ltac:(vm_compute; reflexivity)) as (s & E & R).
    inversion R as [n I E1 E2|i n II ID E1 E2].
    destruct II as [<-|[]]. vm_compute in E2. discriminate E2.
Qed.
Print Assumptions C64_refuted.

(** ** C67. The code writer *)

Lemma grouping_kept : forall cs w, w_grouping (do_calls w cs) = last_grouping (w_grouping w) cs.
Proof.
  unfold do_calls. induction cs as [|c cs IH]; intros w; [reflexivity|]. cbn [fold_left last_grouping]. rewrite IH. destruct c; reflexivity.
Qed.
Lemma last_grouping_app : forall a b g, last_grouping g (a ++ b) = last_grouping (last_grouping g a) b.
Proof. induction a as [|c a IH]; intros b g; [reflexivity|]. destruct c; cbn; apply IH. Qed.

(** Whatever was done to the writer before, what it gives after Reset(h, p) and the calls [cs]
    is laid out as it should be, with the packages that were asked for, in order; the order in
    which Go iterates over the map and the sorting algorithm do not matter. *)
Theorem C67_writer_partial : forall h0 p0 pre h p cs body, package_name p -> ~ contains h importPlaceHolder ->
  pieces cs body ->
  (forall q a, In (Call_UsePkg q a) cs -> Forall path_char q /\ (a = [] \/ package_name a)) ->
  let w := do_calls (NewCodeWriter h0 p0) (pre ++ Call_Reset h p :: cs) in
  exists text l, import_decl text l /\
    (forall n q, In (n, q) l <-> exists a, q <> [] /\ asked cs q a /\ import_name q a n) /\
    StronglySorted (before (last_grouping defaultGroupingFunc (pre ++ cs))) (map snd l) /\
    forall srt m, is_sort srt -> Permutation (w_pkgs w) m -> Bytes srt w m = layout h p text body.
Proof.
  intros h0 p0 pre h p cs body PN NC PC OK w.
  assert (W : w = do_calls (writer_Reset h p (do_calls (NewCodeWriter h0 p0) pre)) cs) by (unfold w; rewrite do_calls_app; reflexivity).
  set (w0 := writer_Reset h p (do_calls (NewCodeWriter h0 p0) pre)) in *.
  destruct (pkgs_asked cs w0 eq_refl (pieces_no_reset cs body PC)) as [ND IN]. rewrite <- W in ND, IN.
  assert (GR : w_grouping w = last_grouping defaultGroupingFunc (pre ++ cs)).
  { rewrite W, grouping_kept, last_grouping_app. f_equal. unfold w0. cbn [writer_Reset w_grouping]. now rewrite grouping_kept. }
  assert (GOK : forall q a, In (q, a) (w_pkgs w) -> path_ok q /\ alias_ok a).
  { intros q b I. apply IN in I as (a & N & (u & v & E & _) & ->).
    assert (IC : In (Call_UsePkg q a) cs) by (rewrite E; apply in_or_app; right; now left).
    destruct (OK q a IC) as [P A]. split; [now split|]. unfold stored. destruct (str_eqb _ a); [now left|exact A]. }
  (* some sorting algorithm, to have the list *)
  destruct (genImports_gen srt0 (w_grouping w) (w_pkgs w) srt0_sorts ND GOK) as (l & D & PL & SS).
  exists (genImports srt0 (w_grouping w) (w_pkgs w)), l. split; [exact D|]. split; [|split].
  - intros n q. split.
    + intro I. apply (Permutation_in _ PL) in I. apply in_map_iff in I as ([q' b] & E & I). injection E as <- <-. cbn [fst snd].
      apply IN in I as (a & N & G & ->). exists a. split; [exact N|]. split; [exact G|]. unfold stored, import_name.
      destruct (str_eqb_spec (path_Base q') a) as [E|E]; [left; auto|]. destruct a as [|c a]; [left; auto|]. right. split; [reflexivity|]. split; [discriminate|exact E].
    + intros (a & N & G & NM). apply (Permutation_in _ (Permutation_sym PL)). apply in_map_iff. exists (q, stored q a). split.
      * cbn [fst snd]. f_equal. unfold stored. destruct NM as [[-> [->|E]]|[-> [E1 E2]]].
        -- destruct (str_eqb _ _); reflexivity.
        -- rewrite E, str_eqb_refl. reflexivity.
        -- destruct (str_eqb_spec (path_Base q) a) as [E|_]; [contradiction|]. destruct a; [congruence|reflexivity].
      * apply IN. exists a. auto.
  - rewrite <- GR. exact SS.
  - intros srt m SRT PM. unfold Bytes. rewrite W at 1. rewrite (buf_pieces cs body PC w0).
    unfold w0 at 1. rewrite reset_buf by exact PN. rewrite place_imports by assumption. f_equal.
    rewrite (genImports_sort srt srt0) by (assumption || exact srt0_sorts). symmetry. apply genImports_order; [exact srt0_sorts|exact ND|exact PM].
Qed.
Print Assumptions C67_writer_partial.

Definition calls_case : list call :=
  [Call_UsePkg (bs "fmt") []; Call_UsePkg (bs "example.com/x") (bs "y"); Call_F (bs "type %s int32") (bs "type A int32");
   Call_UsePkg (bs "github.com/cloudwego/prutal") (bs "prutal"); Call_F [] []; Call_Write (bs "//"); Call_UsePkg (bs "example.com/x") (bs "z")].
Example C67_case : pieces calls_case (bs "type A int32" ++ [x0a; x0a] ++ bs "//") /\
  (forall q a, In (Call_UsePkg q a) calls_case -> Forall path_char q /\ (a = [] \/ package_name a)) /\
  asked calls_case (bs "example.com/x") (bs "z") /\ import_name (bs "github.com/cloudwego/prutal") (bs "prutal") None /\
  let w := do_calls (NewCodeWriter [] (bs "a")) (Call_F (bs "x") (bs "x") :: Call_Reset (bs "// h") (bs "b") :: calls_case) in
  Bytes srt0 w (w_pkgs w) = bs "// h" ++ nl ++ nl ++ bs "package b" ++ nl ++ nl ++ bs "import (" ++ nl ++
    bs "z ""example.com/x""" ++ nl ++ bs " ""fmt""" ++ nl ++ nl ++ bs " ""github.com/cloudwego/prutal""" ++ nl ++ bs ")" ++ nl ++ nl ++
    bs "type A int32" ++ nl ++ nl ++ bs "//".
Proof.
  split; [|split; [|split; [|split]]].
  - exact (pc_use _ _ _ _ (pc_use _ _ _ _ (pc_line (bs "type %s int32") (bs "type A int32") _ _ ltac:(discriminate) ltac:(discriminate)
      (pc_use _ _ _ _ (pc_empty _ _ _ (pc_write (bs "//") _ [] (pc_use _ _ _ _ pc_nil))))))).
  - intros q a I. destruct I as [I|[I|[I|[I|[I|[I|[I|[]]]]]]]]; try discriminate I; injection I as <- <-; (split; [chars|]).
    all: try (left; reflexivity); right; pkg_name.
  - exists (firstn 6 calls_case), []. split; [reflexivity|]. intros a' [].
  - left. split; [reflexivity|]. right. reflexivity.
  - vm_compute. reflexivity.
Qed.

(** A header that contains the place holder: the command line is part of the header. *)
Theorem C67_refuted : exists h p cs body, package_name p /\ pieces cs body /\
  forall srt text, Bytes srt (do_calls (NewCodeWriter h p) cs) (w_pkgs (do_calls (NewCodeWriter h p) cs)) <> layout h p text body.
Proof.
  exists (bs "// prutalgen {PRUTALGEN_GO_IMPORTS}"), (bs "a"), [Call_UsePkg (bs "strconv") []], [].
  split; [pkg_name|]. split; [apply pc_use, pc_nil|]. intros srt text E. vm_compute in E. discriminate E.
Qed.
Print Assumptions C67_refuted.

(** ** C66. The Go package of a file *)

(** [last_element q e]: e is the last element of the path q. *)
Definition last_element (q e : bytes) : Prop := e <> [] /\ ~ In x2f e /\ (q = e \/ exists d, q = d ++ [x2f] ++ e).
Lemma path_Base_last : forall q e, last_element q e -> path_Base q = e.
Proof.
  intros q e (N & NS & H).
  assert (T : forall r s, ~ In x2f r -> take_while (fun c => negb (is_slash c)) (r ++ s) =
     r ++ take_while (fun c => negb (is_slash c)) s).
  { induction r as [|c r IH]; intros s NR; [reflexivity|]. cbn. unfold is_slash at 1. destruct (beqb_spec c x2f) as [->|]; [exfalso; apply NR; now left|].
    cbn. f_equal. apply IH. intro I. apply NR. now right. }
  assert (NR : ~ In x2f (rev e)) by (intro I; apply NS; now apply in_rev).
  assert (HD : exists c r, rev e = c :: r /\ is_slash c = false).
  { destruct (rev e) as [|c r] eqn:E; [apply (f_equal (@rev byte)) in E; rewrite rev_involutive in E; cbn in E; congruence|].
    exists c, r. split; [reflexivity|]. unfold is_slash. destruct (beqb_spec c x2f) as [->|]; [|reflexivity]. exfalso. apply NR. now left. }
  destruct HD as (c & r & HR & HC).
  assert (REV : exists s, rev q = rev e ++ s /\ take_while (fun c => negb (is_slash c)) s = []).
  { destruct H as [->|(d & ->)].
    - exists []. split; [now rewrite app_nil_r|reflexivity].
    - exists (x2f :: rev d). split; [|reflexivity]. rewrite !rev_app_distr. cbn. now rewrite <- app_assoc. }
  destruct REV as (s & REV & TS). unfold path_Base.
  assert (QN : q <> []) by (destruct H as [->|(d & ->)]; [exact N|intro K; apply app_eq_nil in K as [_ K]; discriminate]).
  destruct q as [|c0 q]; [congruence|]. rewrite REV. rewrite HR. cbn [app drop_while]. rewrite HC.
  change (c :: r ++ s) with ((c :: r) ++ s). rewrite <- HR. rewrite (T (rev e) s NR), TS, app_nil_r. apply rev_involutive.
Qed.

Lemma path_plain : forall s, Forall path_char s -> Forall plain_char s /\ ~ In x3b s.
Proof.
  assert (K : forall c, path_char c -> plain_char c /\ c <> x3b).
  { intros c [[H|[H|[H|H]]]|H].
    1,2,3: split; [unfold plain_char, is_upper, is_lower, is_digit in *; lia|intros ->; discriminate H].
    - subst c. split; [split; reflexivity|discriminate].
    - repeat (destruct H as [<-|H]; [split; [split; reflexivity|discriminate]|]). destruct H. }
  intros s H. split.
  - eapply Forall_impl; [|exact H]. intros c C. now apply K.
  - intro I. rewrite Forall_forall in H. apply H, K in I. tauto.
Qed.
Lemma Cut_here : forall c a b, ~ In c a -> Cut c (a ++ c :: b) = (a, b).
Proof.
  induction a as [|x a IH]; intros b N; cbn; [now rewrite beqb_refl|].
  destruct (beqb_spec x c) as [->|]; [exfalso; apply N; now left|]. rewrite IH by (intro I; apply N; now right). reflexivity.
Qed.
Lemma Cut_none : forall c a, ~ In c a -> Cut c a = (a, []).
Proof.
  induction a as [|x a IH]; intros N; cbn; [reflexivity|].
  destruct (beqb_spec x c) as [->|]; [exfalso; apply N; now left|]. rewrite IH by (intro I; apply N; now right). reflexivity.
Qed.
Lemma set_twice : forall s, go_package None (Some s) = setGoPackage s (mkGP [] []).
Proof. intro s. reflexivity. Qed.

(** The option go_package of a file, or the M option of the command line for it, but not both:
    "path;name" gives the import path and the package name; with "path" the name is the last
    element of the path. *)
Theorem C66_go_package_partial : forall q name e s mapped option, Forall path_char q -> q <> [] -> Forall path_char name ->
  last_element q e -> (s = q \/ s = q ++ [x3b] ++ name) ->
  (mapped, option) = (Some s, None) \/ (mapped, option) = (None, Some s) ->
  gp_import (go_package mapped option) = q /\
  gp_name (go_package mapped option) = (if str_eqb s q then e else match name with [] => e | _ => name end).
Proof.
  intros q name e s mapped option PQ NQ PN LE S SRC.
  assert (E : go_package mapped option = setGoPackage s (mkGP [] [])) by (destruct SRC as [K|K]; injection K as -> ->; reflexivity).
  rewrite E. clear E SRC. destruct (path_plain q PQ) as [PL NS]. destruct (path_plain name PN) as [PLN _]. unfold setGoPackage.
  destruct S as [->| ->].
  - rewrite (Cut_none x3b q NS), (TrimSpace_plain q PL), str_eqb_refl. cbn [gp_import gp_name TrimSpace].
    split; [reflexivity|]. destruct q as [|c r]; [congruence|]. exact (path_Base_last (c :: r) e LE).
  - cbn [app]. rewrite (Cut_here x3b q name NS), (TrimSpace_plain q PL), (TrimSpace_plain name PLN).
    assert (NE : str_eqb (q ++ x3b :: name) q = false).
    { apply str_eqb_ne. intro K. apply (f_equal (@length byte)) in K. rewrite app_length in K. cbn in K. lia. }
    rewrite NE. cbn [gp_import gp_name]. split; [reflexivity|]. destruct name as [|c n]; [|reflexivity].
    destruct q as [|c r]; [congruence|]. exact (path_Base_last (c :: r) e LE).
Qed.
Print Assumptions C66_go_package_partial.
Example C66_case : last_element (bs "example.com/foo") (bs "foo") /\
  go_package None (Some (bs "example.com/foo;bar")) = mkGP (bs "example.com/foo") (bs "bar") /\
  go_package (Some (bs "example.com/foo")) None = mkGP (bs "example.com/foo") (bs "foo").
Proof.
  split; [|split; vm_compute; reflexivity]. split; [discriminate|]. split; [intro I; repeat (destruct I as [I|I]; [discriminate I|]); exact I|].
  right. exists (bs "example.com"). reflexivity.
Qed.

(** A file without a Go package is reported, and no other: neither of the two gives anything
    but spaces before or after the semicolon. *)
Definition says_nothing (s : option bytes) : Prop :=
  match s with
  | None => True
  | Some s => exists a b, (s = a \/ s = a ++ [x3b] ++ b) /\ ~ In x3b a /\ TrimSpace a = [] /\ TrimSpace b = []
  end.
Lemma path_Base_nonempty : forall q, path_Base q <> [].
Proof.
  intros [|c q]; [discriminate|]. unfold path_Base.
  assert (H : forall l, match drop_while is_slash l with [] => True | d :: _ => is_slash d = false end).
  { induction l as [|d l IH]; [exact Logic.I|]. cbn. destruct (is_slash d) eqn:Ed; [exact IH|exact Ed]. }
  specialize (H (rev (c :: q))). destruct (drop_while is_slash (rev (c :: q))) as [|d l]; [discriminate|].
  cbn [take_while]. rewrite H. cbn [negb]. intro K. apply (f_equal (@length byte)) in K. rewrite rev_length in K. discriminate.
Qed.
Lemma setGoPackage_name : forall s p, gp_name (setGoPackage s p) = [] <-> says_nothing (Some s) /\ gp_name p = [].
Proof.
  intros s p. unfold setGoPackage, says_nothing.
  assert (C : exists a b, Cut x3b s = (a, b) /\ ~ In x3b a /\ ((s = a /\ b = []) \/ s = a ++ [x3b] ++ b)).
  { destruct (in_dec Byte.byte_eq_dec x3b s) as [I|I].
    - apply in_split in I as (a & b & ->).
      assert (exists a' b', a ++ x3b :: b = a' ++ x3b :: b' /\ ~ In x3b a') as (a' & b' & -> & N).
      { revert b. induction a as [|c a IH]; intro b; [exists [], b; split; [reflexivity|intro Z; exact Z]|].
        destruct (Byte.byte_eq_dec c x3b) as [->|D]; [exists [], (a ++ x3b :: b); split; [reflexivity|intro Z; exact Z]|].
        destruct (IH b) as (a' & b' & E & N). exists (c :: a'), b'. split; [cbn; now rewrite E|]. intros [Z|Z]; auto. }
      exists a', b'. split; [now apply Cut_here|]. split; [exact N|now right].
    - exists s, []. split; [now apply Cut_none|]. split; [exact I|left; auto]. }
  destruct C as (a & b & -> & NA & SH). cbn [gp_name]. split.
  - destruct (TrimSpace b) as [|c r] eqn:Eb; [|discriminate]. destruct (TrimSpace a) as [|c r] eqn:Ea.
    + intro H. split; [|exact H]. exists a, b. destruct SH as [[-> ->]| ->]; auto.
    + intro H. exfalso. exact (path_Base_nonempty (c :: r) H).
  - intros ((a' & b' & S' & NA' & Ta & Tb) & H).
    assert (a' = a /\ TrimSpace b = []) as [-> Tb'].
    { destruct SH as [[-> ->]| ->], S' as [Z|Z]; subst.
      - split; reflexivity.
      - exfalso. apply NA, in_or_app. right. now left.
      - exfalso. apply NA', in_or_app. right. now left.
      - pose proof (Cut_here x3b a b NA) as K1. cbn [app] in Z. rewrite Z in K1.
        rewrite (Cut_here x3b a' b' NA') in K1. injection K1 as -> ->. auto. }
    rewrite Tb', Ta. exact H.
Qed.
Theorem C66_not_set : forall mapped option,
  package_not_set (go_package mapped option) = true <-> says_nothing mapped /\ says_nothing option.
Proof.
  intros mapped option. unfold package_not_set, go_package.
  assert (N : forall p, match gp_name p with [] => true | _ => false end = true <-> gp_name p = [])
    by (intro p; destruct (gp_name p); split; congruence).
  rewrite N. assert (M : gp_name (setGoPackage (match mapped with Some s => s | None => [] end) (mkGP [] [])) = [] <-> says_nothing mapped).
  { rewrite setGoPackage_name. cbn [gp_name]. destruct mapped as [s|]; [tauto|]. split; [intros _; exact Logic.I|]. intros _. split; [|reflexivity].
    exists [], []. split; [now left|]. split; [intro Z; exact Z|]. split; reflexivity. }
  destruct option as [s|]; [|cbn; tauto]. rewrite setGoPackage_name, M. tauto.
Qed.
Print Assumptions C66_not_set.
Example C66_not_set_case : package_not_set (go_package None None) = true /\ package_not_set (go_package (Some (bs " ; ")) (Some [])) = true /\
  package_not_set (go_package (Some (bs "a")) (Some [])) = false.
Proof. vm_compute. auto. Qed.

(** The M option does not win over the option in the file, and the name can be one that is not
    an identifier, or empty. *)
Theorem C66_refuted :
  (exists s t, go_package (Some s) None = mkGP (bs "example.com/mine") (bs "mine") /\ go_package (Some s) (Some t) = mkGP (bs "example.com/theirs") (bs "theirs")) /\
  (exists s, ~ package_name (gp_name (go_package None (Some s))) /\ go_package None (Some s) = mkGP (bs "github.com/a/go-foo") (bs "go-foo")).
Proof.
  split.
  - exists (bs "example.com/mine"), (bs "example.com/theirs"). split; vm_compute; reflexivity.
  - exists (bs "github.com/a/go-foo"). split; [|vm_compute; reflexivity].
    intros ((c & r & E & _ & R) & _). vm_compute in E. injection E as _ <-. inversion R as [|? ? _ R2]. inversion R2 as [|? ? K _].
    destruct K as [K|[K|[K|K]]]; discriminate.
Qed.
Print Assumptions C66_refuted.
