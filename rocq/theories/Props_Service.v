(** Property theorems about the services of accepted files. *)
From Coq Require Import List Arith Bool NArith ZArith Lia Strings.String Init.Byte.
From Verif Require Import Base Value Desc GoStr StrFacts Parse GenField GenNames GenSpec NameSpec GenEnum GenGetter GenImport Scope ScopeSpec ScopeProofs Verify Listen ListenSpec ListenProofs
  LexFile ParserNames Parser Walk SpellSpec Compile CompileSpec CompileProofs CompileScope CompileMsgs Comments GenText TextSpec Props_Scope Props_Compile CompileText CompileTextSpec CompileTextProofs Props_CompileText PackageSpec PackageProofs Props_Package
  ServiceGen ServiceSpec.
Import ListNotations StringSyntax.
Open Scope nat_scope.

Section Found.
Variables (o : nat -> oracle) (data : nat -> bytes) (F : nat -> state) (imports : nat -> list (bool * nat)) (fuel : nat).
Variable E : extras.
Variable go_import : nat -> bytes.
Hypothesis Ac : accepted o data imports fuel F.

(** The type is the one of Compile.v *)
Lemma method_type_is p s ob : resolve_type F imports fuel false p None s = FObj ob ->
  exists y, In y (searched F imports p (fst (type_name s)) (snd (type_name s))) /\ get_file F imports fuel y (snd (type_name s)) = Some ob /\
    method_type F imports fuel go_import p s = Some (if str_eqb (go_import y) (go_import p) then None else Some (go_import y), ob).
Proof.
  unfold resolve_type, method_type. destruct (type_name s) as [dot name]. cbn [fst snd].
  replace (if dot then None else @None obj) with (@None obj) by now destruct dot.
  destruct (first_some (fun x => get_file F imports fuel x name) (searched F imports p dot name)) as [o'|] eqn:D; [|discriminate]. intro H. injection H as ->.
  apply find_first in D as (y & Fy & Gy & Iy). exists y. split; [exact Iy|]. split; [exact Gy|]. now rewrite Fy, Gy.
Qed.
Lemma searched_in p dot name y : In y (searched F imports p dot name) -> y = p \/ In y (map snd (imports p)).
Proof.
  unfold searched. intros [<-|Iy]; [now left|right]. apply in_app_or in Iy as [Iy|Iy].
  - apply in_map_iff in Iy as (z & <- & J). apply filter_In in J as [J _]. now apply in_map.
  - destruct dot; [destruct Iy|]. apply in_map_iff in Iy as (z & <- & J). apply filter_In in J as [J _]. now apply in_map.
Qed.
Lemma object_name ob t : valid F ob -> snd t = ob -> exists n, go_named F ob n /\ type_GoName F E t = qualified (fst t) n.
Proof.
  intros V T. unfold type_GoName. rewrite T. destruct ob as [q j|q j]; destruct V as (m & Em).
  - exists (go_msg F q j). split; [exact (go_msg_named o data F imports fuel go_import Ac q j m Em)|reflexivity].
  - rewrite Em. eexists. split; [exact (enum_named_go o data F imports fuel E go_import Ac q j m Em)|reflexivity].
Qed.
Lemma shown p s ob : resolve_type F imports fuel false p None s = FObj ob ->
  (forall y z, y = p \/ In y (map snd (imports p)) -> In (true, z) (imports y) -> False) ->
  exists t, method_type F imports fuel go_import p s = Some t /\ shows_type F E go_import p ob t.
Proof.
  intros R NP. destruct (method_type_is _ _ _ R) as (y & Iy & Gy & Mt). eexists. split; [exact Mt|].
  pose proof (file_file F imports y (fun z J => NP y z (searched_in _ _ _ _ Iy) J) _ _ _ Gy) as Fi.
  destruct (object_name ob (if str_eqb (go_import y) (go_import p) then None else Some (go_import y), ob) (found_valid _ _ _ _ _ _ _ _ R) eq_refl) as (n & Gn & Nm). cbn [fst] in Nm.
  split; cbn [fst snd]; unfold type_GoImport, IsExternalType, IsMessage, IsEnum; cbn [fst snd]; try rewrite Fi in *.
  - reflexivity.
  - destruct (str_eqb_spec (go_import y) (go_import p)) as [->|]; reflexivity.
  - destruct (str_eqb_spec (go_import y) (go_import p)) as [->|]; split; intros; try congruence; try discriminate.
  - exists n. split; [exact Gn|]. rewrite Nm. destruct (str_eqb_spec (go_import y) (go_import p)) as [Q|Q]; split; intros; try contradiction; reflexivity.
  - destruct ob; split; split; try discriminate; eauto; intros (? & ? & Q); discriminate Q.
Qed.
End Found.

(** ** The types of methods *)
(** For files that LoadProto accepts, without public imports in the files that are imported (C64): the request
    and the response type of every method of every service are found, and each shows the Go package that declares the
    message or enum found and the name it is declared with in it. *)
Theorem C88_types_partial : forall o data imports fuel F E go_import, accepted o data imports fuel F ->
  forall p, (forall y z, y = p \/ In y (map snd (imports p)) -> In (true, z) (imports y) -> False) ->
  forall s m ty, In s (p_services (F p)) -> In m (sv_methods s) -> ty = me_req m \/ ty = me_ret m ->
  exists ob t, resolve_type F imports fuel false p None ty = FObj ob /\ method_type F imports fuel go_import p ty = Some t /\ shows_type F E go_import p ob t.
Proof.
  intros o data imports fuel F E gi Ac p NP s m ty Is Im Ty.
  destruct (C83_typed o data imports fuel F (fun _ => []) (fun _ _ => []) (fun _ _ _ => []) Ac) as (id & _ & _ & H).
  destruct (H p s m Is Im) as (a & b & Ra & Va & Rb & Vb).
  assert (X : exists ob, resolve_type F imports fuel false p None ty = FObj ob) by (destruct Ty as [->| ->]; eauto). destruct X as (ob & R).
  destruct (shown o data F imports fuel E gi Ac p ty ob R NP) as (t & A & B). exists ob, t. auto.
Qed.
Print Assumptions C88_types_partial.
(** The name that is shown means the message, or the enum, in the Go file of the service. *)
Theorem C88_package_partial : forall o data imports fuel F E go_import, accepted o data imports fuel F ->
  no_public imports -> no_deep_enum F ->
  forall p sc, go_scope F imports fuel E go_import p sc ->
  forall s m ty, In s (p_services (F p)) -> In m (sv_methods s) -> ty = me_req m \/ ty = me_ret m ->
  exists ob n, resolve_type F imports fuel false p None ty = FObj ob /\
    (exists t, method_type F imports fuel go_import p ty = Some t /\ type_GoName F E t = qualified (fst t) n /\
       sc (option_map path_Base (fst t)) n = Some (match ob with OMsg q j => TStruct (id_of q j) | OEnum _ _ => TScalar Int32 end)).
Proof.
  intros o data imports fuel F E gi Ac NP ND p sc Sc s m ty Is Im Ty.
  destruct (C88_types_partial o data imports fuel F E gi Ac p (fun y z _ J => NP _ _ J) s m ty Is Im Ty) as (ob & t & R & Mt & Sh).
  pose proof (found_valid _ _ _ _ _ _ _ _ R) as V. destruct (object_name o data F imports fuel E gi Ac ob t V (st_object _ _ _ _ _ _ Sh)) as (n & Gn & Nm).
  exists ob, n. split; [exact R|]. exists t. split; [exact Mt|]. split; [exact Nm|].
  destruct (method_type_is F imports fuel gi p ty ob R) as (y & Iy & Gy & Mt'). rewrite Mt in Mt'. injection Mt' as ->. cbn [fst].
  pose proof (file_file F imports y (fun z J => NP _ _ J) _ _ _ Gy) as Fi. pose proof (searched_in F imports _ _ _ _ Iy) as Vi.
  assert (Vq : PackageSpec.visible imports gi p (file_of_obj ob)) by (rewrite Fi; destruct Vi as [->|Vi]; [now left|now right]).
  assert (Qq : qualifier gi p (file_of_obj ob) (option_map path_Base (if str_eqb (gi y) (gi p) then None else Some (gi y)))).
  { rewrite Fi. destruct (str_eqb_spec (gi y) (gi p)) as [Y|Y]; [left; auto|right; auto]. }
  apply Sc. destruct ob as [q j|q j]; cbn [file_of_obj] in *.
  - eapply means_message; eauto.
  - destruct V as (e & Ee). eapply means_enum; eauto. exact (enum_declared o data F imports fuel Ac q j e ND Ee).
Qed.
Print Assumptions C88_package_partial.
(** With C52: where the names are unique and not mixed up with those of packages, the type found for a name
    without a leading dot is the one it means in the package of the file. *)
Theorem C88_means_partial : forall o data imports F T rank fuel p s,
  (forall p, load_file (o p) (data p) = Some (LOk (F p))) -> (forall p, shows_file (F p) (T p)) ->
  let P p := pfile_of (T p) (imports p) in
  let n := snd (type_name s) in
  fst (type_name s) = false -> n <> [] ->
  public_ok P rank -> (forall x, ScopeSpec.visible P p x -> rank x + length n < fuel) ->
  unique_names P p -> no_package_name P p -> package_once P p n -> local_or_full P p n ->
  match resolve_type F imports fuel false p None s with
  | FObj ob => exists q, obj_at (file_of_obj ob) (F (file_of_obj ob)) ob q /\ ScopeSpec.visible P p (file_of_obj ob) /\
               ScopeSpec.means P p (scope_of P p []) n (full P (file_of_obj ob) q)
  | FNone => forall d, ~ ScopeSpec.means P p (scope_of P p []) n d
  | FScalar _ => False
  end.
Proof.
  intros o data imports F T rank fuel p s Ld Sh P n D Ne Po Fu Un Np Pk Lf.
  destruct (C83_types o data imports F T Ld Sh fuel false p s) as [_ C3].
  assert (No : no_own_name P p []) by (intros ? ? ? ? []).
  assert (Ns : nested (f_msgs (P p)) []) by constructor.
  pose proof (C52_resolve_partial P rank fuel false p [] n Po Fu Un Ns No Np Pk Lf Ne ltac:(discriminate)) as K.
  fold P in C3. rewrite D in C3. fold n in C3. unfold same_result in C3.
  destruct (resolve_type F imports fuel false p None s) as [b|ob|], (Scope.resolve P fuel false p [] false n) as [|x q|]; try exact K; try (destruct C3; fail).
  destruct C3 as [<- C3]. destruct K as (V & _ & Mn). exists q. auto.
Qed.
Print Assumptions C88_means_partial.

(** ** The names of services and methods *)
Lemma trim_none s p : ~ In x2e s -> TrimPrefix s (p ++ bs ".") = s.
Proof.
  intros N. unfold TrimPrefix. destruct (HasPrefix s (p ++ bs ".")) eqn:H; [|reflexivity]. exfalso. revert s N H.
  induction p as [|c p IH]; intros [|d s] N H; try discriminate H.
  - change (beqb x2e d && HasPrefix s [] = true) in H. apply andb_true_iff in H as [H _]. apply N. left. destruct (beqb_spec x2e d) as [<-|]; [reflexivity|discriminate H].
  - cbn [app HasPrefix] in H. apply andb_true_iff in H as [_ H]. apply (IH s); [intro J; apply N; now right|exact H].
Qed.
Lemma proto_no_dot s : proto_name s -> ~ In x2e s.
Proof.
  intros P J. apply proto_ident, proj2 in P. pose proof (proj1 (Forall_forall _ _) P _ J) as Q. clear P. rename Q into P. destruct P as [P|[P|[P|P]]]; discriminate P.
Qed.
Lemma file_services_in d n l : In (n, l) (file_services d) -> In (StService n l) d.
Proof. unfold file_services. rewrite in_flat_map. intros (x & J & H). destruct x; cbn in H; first [destruct H as [H|[]]; injection H as <- <-; exact J|destruct H]. Qed.
Lemma service_rpcs_in l r : In r (service_rpcs l) -> In (SsRpc r) l.
Proof. unfold service_rpcs. rewrite in_flat_map. intros (x & J & H). destruct x; cbn in H; first [destruct H as [H|[]]; subst; exact J|destruct H]. Qed.
Lemma loaded_services o data st s : load_file o data = Some (LOk st) -> In s (p_services st) ->
  proto_name (sv_name s) /\ forall m, In m (sv_methods s) -> proto_name (me_name m).
Proof.
  intros H Js. destruct (opened _ _ _ H) as (f & t & w & Lf & Ff & L & Mt & St).
  destruct Mt as (_ & _ & _ & _ & _ & _ & Ms). destruct St as (_ & _ & _ & _ & _ & _ & Ss). rewrite Ss in Js.
  destruct (Forall2_r _ _ _ _ Ms Js) as ([n l] & J & Nm & Mm & _). cbn [fst snd] in *. apply file_services_in in J.
  unfold file_is in Ff. cbn [spell] in Ff. destruct Ff as (a1 & b1 & -> & _ & a2 & b2 & -> & Sv & _).
  destruct (several_in _ _ _ _ Sv (lexed_l _ _ (lexed_r _ _ L)) J) as (v & Hv & Lv).
  cbn [top_is] in Hv. unfold service_is in Hv. cbn [spell] in Hv. destruct Hv as (c1 & d1 & -> & _ & c2 & d2 & -> & Hn & c3 & d3 & -> & _ & c4 & d4 & -> & Se & _).
  split.
  - rewrite Nm. eapply (name_proto r_serviceName); [with_strategy transparent [ParserSpec.rule] reflexivity|exact Hn|]. exact (lexed_l _ _ (lexed_r _ _ Lv)).
  - intros m Jm. destruct (Forall2_r _ _ _ _ Mm Jm) as (r & Jr & Nr & _). apply service_rpcs_in in Jr.
    destruct (several_in _ _ _ _ Se (lexed_l _ _ (lexed_r _ _ (lexed_r _ _ (lexed_r _ _ Lv)))) Jr) as (u & Hu & Lu).
    cbn [service_elem_is] in Hu. unfold rpc_is in Hu. cbn [spell] in Hu. destruct Hu as (e1 & g1 & -> & _ & e2 & g2 & -> & Hr & _).
    rewrite Nr. eapply (name_proto r_rpcName); [with_strategy transparent [ParserSpec.rule] reflexivity|exact Hr|]. exact (lexed_l _ _ (lexed_r _ _ Lu)).
Qed.
(** The Go names of the services and methods of a file that is read are the names in the file in camel case, and exported
    identifiers of Go. *)
Theorem C88_names : forall o data st s, load_file o data = Some (LOk st) -> In s (p_services st) ->
  service_GoName st s = GoCamelCase (sv_name s) /\ exported (service_GoName st s) /\
  forall m, In m (sv_methods s) -> method_GoName m = GoCamelCase (me_name m) /\ exported (method_GoName m).
Proof.
  intros o data st s H J. destruct (loaded_services _ _ _ _ H J) as [A B].
  assert (Q : service_GoName st s = GoCamelCase (sv_name s)) by (unfold service_GoName; rewrite trim_none; [reflexivity|now apply proto_no_dot]).
  split; [exact Q|]. split; [rewrite Q; now apply camel_name|]. intros m Jm. split; [reflexivity|]. now apply camel_name, B.
Qed.
Print Assumptions C88_names.

(** ** Refutation: enums as types of methods, methods of the same name, and types that are imported publicly *)
Definition sr_data (p : nat) : bytes :=
  match p with
  | 0 => bs "syntax='proto3';import 'b';service S{rpc f(E)returns(stream K);rpc f(K)returns(K);rpc F(K)returns(E);}enum E{A=0;}"
  | 1 => bs "syntax='proto3';import public 'c';"
  | _ => bs "syntax='proto3';message K{}"
  end.
Definition sr_service : service :=
  mkSv (bs "S") [mkMe (bs "f") false (bs "E") true (bs "K") []; mkMe (bs "f") false (bs "K") false (bs "K") []; mkMe (bs "F") false (bs "K") false (bs "E") []] [].
Definition sr_st (p : nat) : state :=
  match p with
  | 0 => mkSt [] [mkER (bs "E") None [mkEF (bs "A") 0 []] [] []] [] None (bs "proto3") [] [] [(bs "b", false)] [] [0] [sr_service]
  | 1 => mkSt [] [] [] None (bs "proto3") [] [] [(bs "c", true)] [] [] []
  | _ => mkSt [mkMR (bs "K") None [] [] [] [] [] []] [] [] None (bs "proto3") [] [] [] [0] [] []
  end.
Definition sr_imports (p : nat) : list (bool * nat) := match p with 0 => [(false, 1)] | 1 => [(true, 2)] | _ => [] end.
Definition sr_path (p : nat) : bytes := match p with 0 => bs "x.io/a" | 1 => bs "x.io/b" | _ => bs "x.io/c" end.
Lemma sr_accepted : accepted (fun _ => predict) sr_data sr_imports 5 sr_st.
Proof.
  split.
  - intros [|[|p]]; rewrite <- Props_Walk.loaded_quick_ok; with_strategy transparent [parse Walk.load_tree Walk.events parser_tokens LexFile.lex_file] (vm_compute; reflexivity).
  - intros [|[|p]]; vm_compute; reflexivity.
  - intros [|[|p]]; vm_compute; reflexivity.
  - intros [|[|p]]; (split; [constructor|]); intros [|i] m x E J; cbn in E; try discriminate E; try (destruct i; discriminate E); injection E as <-; destruct J.
Qed.
(** A file is accepted whose service has a method with an enum as its request type, two methods of one name, two names
    with one Go name, and a type K that should be named c.K, being declared in the Go package x.io/c, and is named b.K. *)
Theorem C88_refuted : accepted (fun _ => predict) sr_data sr_imports 5 sr_st /\ p_services (sr_st 0) = [sr_service] /\
  (exists m t, In m (sv_methods sr_service) /\ method_type sr_st sr_imports 5 sr_path 0 (me_req m) = Some t /\ IsEnum t = true /\ IsMessage t = false) /\
  ~ NoDup (map me_name (sv_methods sr_service)) /\
  (exists m m', In m (sv_methods sr_service) /\ In m' (sv_methods sr_service) /\ me_name m <> me_name m' /\ method_GoName m = method_GoName m') /\
  (exists m t, In m (sv_methods sr_service) /\ method_type sr_st sr_imports 5 sr_path 0 (me_ret m) = Some t /\ snd t = OMsg 2 0 /\
     type_GoImport sr_path 0 t = sr_path 1 /\ type_GoName sr_st pk_extras t = bs "b.K").
Proof.
  split; [exact sr_accepted|]. split; [reflexivity|]. split; [|split; [|split]].
  - eexists _, _. split; [now left|]. split; [vm_compute; reflexivity|]. split; reflexivity.
  - intro N. inversion N as [|? ? A _]; subst. apply A. now left.
  - eexists _, _. split; [now left|]. split; [right; right; now left|]. split; [discriminate|vm_compute; reflexivity].
  - eexists _, _. split; [now left|]. split; [vm_compute; reflexivity|]. split; [reflexivity|]. split; [reflexivity|vm_compute; reflexivity].
Qed.
Print Assumptions C88_refuted.

(** ** Example: a service with types of its own package and of another one *)
Definition sx_data (p : nat) : bytes :=
  match p with
  | 0 => bs "syntax='proto3';package a;import 'b';message M{}service my_srv{rpc do_it(M)returns(stream b.K);}"
  | _ => bs "syntax='proto3';package b;message K{}"
  end.
Definition sx_service : service := mkSv (bs "my_srv") [mkMe (bs "do_it") false (bs "M") true (bs "b.K") []] [].
Definition sx_st (p : nat) : state :=
  match p with
  | 0 => mkSt [mkMR (bs "M") None [] [] [] [] [] []] [] [] None (bs "proto3") (bs "a") [] [(bs "b", false)] [0] [] [sx_service]
  | _ => mkSt [mkMR (bs "K") None [] [] [] [] [] []] [] [] None (bs "proto3") (bs "b") [] [] [0] [] []
  end.
Example C88_ex : accepted (fun _ => predict) sx_data ct_imports 5 sx_st /\ no_public ct_imports /\ no_deep_enum sx_st /\ In sx_service (p_services (sx_st 0)) /\
  option_map (type_GoName sx_st pk_extras) (method_type sx_st ct_imports 5 ct_path 0 (bs "M")) = Some (bs "M") /\
  option_map (type_GoName sx_st pk_extras) (method_type sx_st ct_imports 5 ct_path 0 (bs "b.K")) = Some (bs "b.K") /\
  option_map (type_GoImport ct_path 0) (method_type sx_st ct_imports 5 ct_path 0 (bs "b.K")) = Some (bs "x.io/b") /\
  service_GoName (sx_st 0) sx_service = bs "MySrv" /\ map method_GoName (sv_methods sx_service) = [bs "DoIt"].
Proof.
  split.
  { split.
    - intros [|p]; rewrite <- Props_Walk.loaded_quick_ok; with_strategy transparent [parse Walk.load_tree Walk.events parser_tokens LexFile.lex_file] (vm_compute; reflexivity).
    - intros [|p]; vm_compute; reflexivity.
    - intros [|p]; vm_compute; reflexivity.
    - intros [|p]; (split; [constructor|]); intros [|i] m x E J; cbn in E; try discriminate E; try (destruct i; discriminate E); injection E as <-; destruct J. }
  split; [intros [|p] q J; [destruct J as [J|[]]; discriminate J|destruct J]|].
  split; [intros [|p] [|i] m Em Pm; cbn in Em; try (destruct i; discriminate Em); injection Em as <-; now destruct Pm|].
  split; [now left|]. repeat split; vm_compute; reflexivity.
Qed.
