(** C65.  The getters of a generated message. *)
From Coq Require Import Strings.String Init.Byte Lia.
From Verif Require Import Base Value Desc GoStr StrFacts Parse MsgSpec GenField GenNames NameSpec NameProofs ConflictProofs GenSpec GenEnum GenImport GenGetter GetterSpec GetterProofs Props_Gen.
Import StringSyntax.
Open Scope N_scope.

Lemma getter_exec : forall sc E fields x k c f ti n i all,
  match pf_one f with
  | Some o => me_type (getter_of c f ti n i all) = GoTypeName c f
  | None => True
  end /\
  exec sc E fields x k (me_type (getter_of c f ti n i all)) (me_body (getter_of c f ti n i all)) =
  let zero := match eval_expr sc E (GoZero c f ti) (me_type (getter_of c f ti n i all)) with Some v => Gret v | None => Gbad end in
  match pf_one f with
  | Some o => match k (Getter (oneof_GoName all o)) with
              | Gret (VIface (Some (w', p))) => if Nat.eqb w' i then match p with Some v => Gret v | None => Gpanic end else zero
              | Gret (VIface None) => zero
              | Gret _ => Gbad
              | Gpanic => Gpanic
              | Gbad => Gbad
              end
  | None => match x with
            | None => zero
            | Some vs =>
                match field_val fields vs n with
                | None => Gbad
                | Some s => match (if pf_is_msg f then None else strip_star (GoTypeName c f)) with
                            | Some _ => match s with VPtr (Some v) => Gret v | VPtr None => zero | _ => Gbad end
                            | None => Gret s
                            end
                end
            end
  end.
Proof.
  intros. unfold getter_of. destruct (pf_one f) as [o|]; [split; reflexivity|]. split; [exact Logic.I|].
  unfold field_getter. destruct (if pf_is_msg f then _ else _); cbn; destruct x as [vs|]; try reflexivity;
    destruct (field_val fields vs n) as [s|]; try reflexivity.
Qed.

(** The field [f], number [i] of the message [m], has the Go name [rf_go n]; [get x] calls its
    getter on the receiver [x], nil or a pointer to a struct with the contents [vs].  The getter
    returns the value of the field if it is set ([set_value]) and else ([not_set]), and for a nil
    receiver, the zero value of its type.  It never fails, except that it panics if the oneof
    holds a nil pointer to the wrapper of the field. *)
Theorem C65_getters : forall sc E U c m names ti,
  legal_message c m -> resolveFieldConflicts m = Some names ->
  (forall i f, nth_error (pm_fields m) i = Some f -> type_known sc (pf_ty f) (ti i)) ->
  (forall i p, ti_import (ti i) = Some p -> path_Base p <> bs "x") ->
  forall i f n, nth_error (pm_fields m) i = Some f -> nth_error names i = Some n ->
  let ms := message_getters c m ti names in
  let fields := struct_names (pm_fields m) names in
  let get x := call sc E fields x ms 2 (bs "Get" ++ rf_go n) in
  exists me, find_method ms (bs "Get" ++ rf_go n) = Some me /\
    getter_type f (GoTypeName c f) (me_type me) /\
    get None = Gret (zero_of E (me_type me)) /\
    forall vs, Forall2 (fun g v => wt E (gf_type g) v) (struct_fields U c m [] (pm_fields m)) vs ->
      exists s, field_val fields vs (match pf_one f with Some o => oneof_GoName names o | None => rf_go n end) = Some s /\
        (forall v, set_value f i s v -> get (Some vs) = Gret v) /\
        (not_set f i s -> get (Some vs) = Gret (zero_of E (me_type me))) /\
        (s = VIface (Some (i, None)) -> get (Some vs) = Gpanic) /\
        ((exists v, set_value f i s v) \/ not_set f i s \/ s = VIface (Some (i, None))).
Proof.
  intros sc E U c m names ti LM H TK NX i f n A B ms fields get.
  destruct (getter_found c m ti names H i f n A B) as [F1 F2].
  change (bs "Get" ++ rf_go n) with (Getter (rf_go n)) in *.
  exists (getter_of c f (ti i) (rf_go n) i names). split; [exact F1|].
  pose proof (lm_fields _ _ LM) as LF. rewrite Forall_forall in LF. specialize (LF f (nth_error_In _ _ A)).
  assert (VT : me_type (getter_of c f (ti i) (rf_go n) i names) = value_type c f).
  { unfold getter_of, value_type. destruct (pf_one f) as [o|] eqn:O.
    - cbn. destruct (pf_is_msg f) eqn:M; [reflexivity|]. destruct (lf_one _ _ LF o O) as (R & _ & P).
      assert (NM : forall t, GoTypeName c f <> TPtr t); [|destruct (GoTypeName c f); try reflexivity; now destruct (NM _ eq_refl)].
      unfold GoTypeName. destruct (pf_kt f) as [k|] eqn:K; [discriminate|]. rewrite R. unfold pf_is_pointer. rewrite O, P, M, R.
      destruct (genNoPointer c f); [|destruct (pf_is_map f || false || _)]; destruct (pf_ty f) as [[]| |]; discriminate.
    - unfold field_getter. destruct (if pf_is_msg f then _ else _); reflexivity. }
  assert (GT : getter_type f (GoTypeName c f) (value_type c f)).
  { unfold getter_type, value_type. unfold pf_is_msg, GoTypeName, pf_is_map. destruct (pf_kt f) as [k|]; [reflexivity|]. destruct (pf_rep f); [destruct (pf_ty f); reflexivity|].
    destruct (pf_is_pointer c f); destruct (pf_ty f) as [[]| |]; reflexivity. }
  rewrite VT. split; [exact GT|].
  pose proof (zero_value sc E c f (ti i) (TK i f A) (NX i)) as ZV.
  assert (GE : forall x, get x =
    match pf_one f with
    | Some o => match x with
                | None => Gret (zero_of E (value_type c f))
                | Some vs => match field_val fields vs (oneof_GoName names o) with
                             | Some (VIface (Some (w', p))) => if Nat.eqb w' i then match p with Some v => Gret v | None => Gpanic end
                                                               else Gret (zero_of E (value_type c f))
                             | Some (VIface None) => Gret (zero_of E (value_type c f))
                             | _ => Gbad
                             end
                end
    | None => match x with
              | None => Gret (zero_of E (value_type c f))
              | Some vs => match field_val fields vs (rf_go n) with
                           | None => Gbad
                           | Some s => match (if pf_is_msg f then None else strip_star (GoTypeName c f)) with
                                       | Some _ => match s with VPtr (Some v) => Gret v | VPtr None => Gret (zero_of E (value_type c f)) | _ => Gbad end
                                       | None => Gret s
                                       end
                           end
              end
    end).
  { intro x. unfold get. cbn [call]. unfold ms at 1. rewrite F1. rewrite (proj2 (getter_exec sc E fields x _ c f (ti i) (rf_go n) i names)).
    cbv zeta. rewrite VT, ZV. destruct (pf_one f) as [o|] eqn:O; [|reflexivity].
    unfold ms. rewrite (F2 o eq_refl). cbn [oneof_getter me_type me_body exec]. destruct x as [vs|].
    - destruct (field_val fields vs (oneof_GoName names o)) as [s|]; [|reflexivity]. destruct s; try reflexivity.
    - unfold oneof_type. rewrite eval_nil; [reflexivity|exact Logic.I]. }
  split. { rewrite GE. destruct (pf_one f); reflexivity. }
  intros vs W. apply (Forall2_mapl _ _ _ gf_type (wt E)) in W.
  destruct (lookup_combine2 _ _ _ _ _ _ _ _ W (slot_lookup U c m names H i f n A B)) as (s & S & WT).
  exists s. unfold slot_name in S. change (field_val fields vs (match pf_one f with Some o => oneof_GoName names o | None => rf_go n end) = Some s) in S.
  split; [exact S|]. rewrite GE. clear GE. unfold slot_type in WT. destruct (pf_one f) as [o|] eqn:O.
  - rewrite S. unfold oneof_type in WT. destruct s as [| | | | | | | |[[w p]|]]; try (destruct WT; discriminate); try discriminate WT; try contradiction WT.
    + split; [|split; [|split]].
      * intros v Q. inversion Q; subst; try congruence. now rewrite Nat.eqb_refl.
      * intros Q. inversion Q; subst; try congruence. destruct (Nat.eqb_spec w i); congruence.
      * intro Q. injection Q as -> ->. now rewrite Nat.eqb_refl.
      * destruct (Nat.eq_dec w i) as [->|N]; [|right; left; econstructor; eassumption].
        destruct p as [v|]; [left; exists v; econstructor; eassumption|right; right; reflexivity].
    + split; [|split; [|split]]; try discriminate.
      * intros v Q. inversion Q; subst; congruence.
      * reflexivity.
      * right. left. econstructor. eassumption.
  - rewrite S. destruct (if pf_is_msg f then None else strip_star (GoTypeName c f)) as [t|] eqn:X.
    + destruct (pf_is_msg f) eqn:M; [discriminate|]. destruct (GoTypeName c f) eqn:G; try discriminate. injection X as ->.
      assert (NM : forall id, pf_ty f <> PMsg id).
      { intros id Q. unfold pf_is_msg, pf_is_map in M. rewrite Q in M. unfold GoTypeName in G. destruct (pf_kt f); [discriminate|discriminate M]. }
      destruct s as [| | | |p| | | |]; try (destruct WT; discriminate); try discriminate WT; try contradiction WT.
      split; [|split; [|split]]; try discriminate.
      * intros v Q. inversion Q; subst; try congruence.
      * intros Q. inversion Q; subst; try congruence.
      * destruct p as [v|]; [left; exists v; constructor; assumption|right; left; constructor; assumption].
    + assert (PM : forall p, s = VPtr p -> exists id, pf_ty f = PMsg id).
      { intros p ->. destruct (pf_is_msg f) eqn:M.
        - unfold pf_is_msg in M. destruct (pf_ty f) as [| |id]; try (rewrite andb_false_r in M; discriminate). eauto.
        - destruct (GoTypeName c f) eqn:G; try discriminate; contradiction WT. }
      split; [|split; [|split]].
      * intros v Q. inversion Q; subst; try congruence. destruct (PM _ eq_refl) as (id & Z). exfalso. eapply H1. exact Z.
      * intro Q. inversion Q; subst; try congruence. destruct (PM _ eq_refl) as (id & Z). exfalso. eapply H1. exact Z.
      * intros ->. exfalso. clear - WT. unfold GoTypeName, pf_is_msg in *. unfold wt in WT. cbn in WT.
        destruct (pf_kt f); [contradiction|]. destruct (pf_rep f); [contradiction|]. destruct (pf_is_pointer c f); [contradiction|].
        destruct (pf_ty f) as [[]| |]; cbn in WT; contradiction.
      * left. destruct s as [| | | |p| | | |]; try (eexists; apply sv_plain; [exact O|congruence]).
        destruct (PM _ eq_refl) as (id & Z). eexists. eapply sv_message; eassumption.
Qed.
Print Assumptions C65_getters.

(** The getters compile: each statement uses fields the struct has, at their types, each return
    the type of the method, and each method ends with a return. *)
Theorem C65_compiles : forall sc E U c m names ti,
  legal_message c m -> resolveFieldConflicts m = Some names ->
  (forall i f, nth_error (pm_fields m) i = Some f -> type_known sc (pf_ty f) (ti i)) ->
  (forall i p, ti_import (ti i) = Some p -> path_Base p <> bs "x") ->
  let ms := message_getters c m ti names in
  NoDup (map me_name ms) /\
  Forall (method_ok sc E (combine (struct_names (pm_fields m) names) (map gf_type (struct_fields U c m [] (pm_fields m))))
            (fun w => option_map rf_go (nth_error names w)) ms) ms.
Proof.
  intros sc E U c m names ti LM H TK NX ms. split; [now apply getters_nodup|]. rewrite Forall_forall. intros me I.
  unfold ms, message_getters in I. apply in_getters in I. destruct I as (i & f & n & A & B & D). rewrite Nat.add_0_r in D.
  pose proof (slot_lookup U c m names H i f n A B) as SL. unfold slot_name, slot_type in SL.
  destruct (getter_found c m ti names H i f n A B) as [F1 F2].
  pose proof (lm_fields _ _ LM) as LF. rewrite Forall_forall in LF. specialize (LF f (nth_error_In _ _ A)).
  pose proof (zero_value sc E c f (ti i) (TK i f A) (NX i)) as ZV.
  destruct D as [->|(o & O & ->)].
  - unfold getter_of in *. destruct (pf_one f) as [o|] eqn:O.
    + split; [|exists [SMember (Getter (oneof_GoName names o)) i (rf_go n)]; eexists; reflexivity].
      cbn [member_getter me_type me_body]. constructor; [|constructor; [|constructor]].
      * exists (oneof_getter c m o (oneof_GoName names o)). eexists. split; [exact (F2 o eq_refl)|]. split; [reflexivity|]. split.
        -- change (i, GoTypeName c f) with ((fun p => (fst p, GoTypeName c (snd p))) (i, f)). apply in_map.
           rewrite <- (Nat.add_0_r i) at 1. now apply oneof_fields_in.
        -- now rewrite B.
      * cbn [stmt_ok]. assert (V : value_type c f = GoTypeName c f).
        { unfold value_type. destruct (pf_is_msg f) eqn:M; [reflexivity|]. destruct (lf_one _ _ LF o O) as (R & _ & P).
          unfold GoTypeName. destruct (pf_kt f) as [k|] eqn:K; [reflexivity|]. rewrite R. unfold pf_is_pointer. rewrite O, P, M, R.
          destruct (genNoPointer c f); [|destruct (pf_is_map f || false || _)]; destruct (pf_ty f) as [[]| |]; reflexivity. }
        rewrite V in ZV. rewrite ZV. discriminate.
    + unfold value_type in ZV. unfold field_getter. destruct (pf_is_msg f) eqn:M; [|destruct (GoTypeName c f) eqn:G; cbn [strip_star] in *].
      all: split; [cbn [me_type me_body]; constructor; [first [exact SL|cbn; rewrite SL; reflexivity]|constructor; [cbn [stmt_ok]; rewrite ZV; discriminate|constructor]]|].
      all: eexists [_], _; reflexivity.
  - rewrite O in SL. split; [|exists [SField (oneof_GoName names o)]; eexists; reflexivity].
    cbn [oneof_getter me_type me_body]. constructor; [exact SL|]. constructor; [|constructor]. cbn [stmt_ok]. unfold oneof_type. rewrite eval_nil; [discriminate|exact Logic.I].
Qed.
Print Assumptions C65_compiles.
(** There is one getter per field and one per oneof that has fields, and they are named after
    them. *)
Theorem C65_complete : forall c m names ti, resolveFieldConflicts m = Some names ->
  forall k, In k (map me_name (message_getters c m ti names)) <->
    exists n, k = bs "Get" ++ n /\ (In n (map rf_go names) \/ In n (oneof_go names)).
Proof.
  intros c m names ti H k. rewrite (message_getters_names _ _ _ _ H), getters_gsrc, in_map_iff. split.
  - intros (n & <- & I). exists n. split; [reflexivity|]. now apply gsrc_in.
  - intros (n & -> & I). exists n. split; [reflexivity|]. now apply gsrc_in.
Qed.
Print Assumptions C65_complete.

(** The zero value that a getter returns for a field that is not set is the default value of the
    field if the field has no option default and, for an enum, the first value is 0 (as proto3
    demands). *)
Theorem C65_default_partial : forall E f ti t,
  (forall s, ~ given (pf_opts f) (bs "default") s) ->
  (singular_enum f -> t = TScalar Int32 /\ exists n r, ti_values ti = (n, 0%Z) :: r) ->
  forall v, default_value E f ti t v <-> v = zero_of E t.
Proof.
  intros E f ti t ND EN v. split.
  - intro D. destruct D as [s D|D|D|n z r _ SE Q|]; try (exfalso; eapply ND; exact D).
    + destruct (EN SE) as [-> (n' & r' & Z)]. rewrite Z in Q. injection Q as _ <- _. reflexivity.
    + reflexivity.
  - intros ->. assert (DEC : singular_enum f \/ ~ singular_enum f).
    { unfold singular_enum. destruct (pf_kt f); [right; intros (Q & _); discriminate|]. destruct (pf_rep f); [right; intros (_ & Q & _); discriminate|].
      destruct (pf_ty f); [right; intros (_ & _ & Q); discriminate|left; auto|right; intros (_ & _ & Q); discriminate]. }
    destruct DEC as [SE|SE]; [|now constructor]. destruct (EN SE) as [-> (n & r & Z)]. change (zero_of E (TScalar Int32)) with (VNum (int32_bits 0)).
    econstructor; eassumption.
Qed.
Print Assumptions C65_default_partial.

Definition no_structs : env := fun _ => mkS [] false 0 [] (VStruct [] None).
Definition no_names : scope := mkSc (fun _ => None) (fun _ => None).
Definition p2 : pctx := mkC Proto2 [] [] [] [].
Ltac legal_one :=
  split; [apply Forall_cons; [split; cbn -[bs]; try (intros; discriminate); try lia|apply Forall_nil]
         |repeat constructor; intros []|intros f o [<-|[]] Q; discriminate Q|constructor].
(** False of the code: the option default is ignored, and so is the rule that the default of an
    enum is its first value. *)
Theorem C65_refuted :
  (exists m names n, legal_message p2 m /\ resolveFieldConflicts m = Some names /\
     pm_fields m = [mkPF (bs "s") None (PScalar PString) 1 false false true [(bs "default", bs "hi")] [] None] /\
     nth_error names 0 = Some n /\
     forall sc E ti v, call sc E (struct_names (pm_fields m) names) None (message_getters p2 m ti names) 2 (bs "Get" ++ rf_go n) = Gret v ->
       ~ default_value E (nth 0 (pm_fields m) (mkPF [] None PEnum 0 false false false [] [] None)) (ti 0%nat) TString v) /\
  (exists m names n ti, legal_message p2 m /\ resolveFieldConflicts m = Some names /\
     pm_fields m = [mkPF (bs "e") None PEnum 1 false false true [] [] None] /\
     nth_error names 0 = Some n /\ ti_values (ti 0%nat) = [(bs "E_ONE", 1%Z); (bs "E_TWO", 2%Z)] /\
     forall sc E v, call sc E (struct_names (pm_fields m) names) None (message_getters p2 m ti names) 2 (bs "Get" ++ rf_go n) = Gret v ->
       ~ default_value E (nth 0 (pm_fields m) (mkPF [] None PEnum 0 false false false [] [] None)) (ti 0%nat) (TScalar Int32) v).
Proof.
  split.
  - exists (mkPM [mkPF (bs "s") None (PScalar PString) 1 false false true [(bs "default", bs "hi")] [] None] []), [mkRF (bs "S") None], (mkRF (bs "S") None).
    split. { legal_one. all: first [ident_ex | given_ex | split; repeat constructor; intros []]. }
    split; [vm_compute; reflexivity|]. split; [reflexivity|]. split; [reflexivity|].
    intros sc E ti v Q D. vm_compute in Q. injection Q as <-. inversion D as [s G T Q|G T Q|G T Q|n z r N SE T Q|N SE Q].
    + subst. destruct G as [G|[]]. vm_compute in G. discriminate.
    + eapply N. left. reflexivity.
  - exists (mkPM [mkPF (bs "e") None PEnum 1 false false true [] [] None] []), [mkRF (bs "E") None], (mkRF (bs "E") None),
      (fun _ => mkTI None (bs "E") [(bs "E_ONE", 1%Z); (bs "E_TWO", 2%Z)]).
    split. { legal_one. all: first [ident_ex | given_ex | split; repeat constructor; intros []]. }
    split; [vm_compute; reflexivity|]. split; [reflexivity|]. split; [reflexivity|]. split; [reflexivity|].
    intros sc E v Q D. vm_compute in Q. injection Q as <-. inversion D as [s G T Q|G T Q|G T Q|n z r N SE T Q|N SE Q].
    + destruct G.
    + injection T as <- <- <-. vm_compute in Q. discriminate.
    + apply SE. repeat split.
Qed.
Print Assumptions C65_refuted.
(** False of the code, too: if the enum comes from a package whose import path ends in x, its
    constant is taken for a field of the receiver x and the getter does not compile. *)
Theorem C65_package_refuted : exists sc E c m names ti n,
  legal_message c m /\ resolveFieldConflicts m = Some names /\
  (forall i f, nth_error (pm_fields m) i = Some f -> type_known sc (pf_ty f) (ti i)) /\
  ti_import (ti 0%nat) = Some (bs "example.com/x") /\ nth_error names 0 = Some n /\
  call sc E (struct_names (pm_fields m) names) None (message_getters c m ti names) 2 (bs "Get" ++ rf_go n) = Gbad.
Proof.
  exists (mkSc (fun _ => None) (fun q => if str_eqb q (bs "x") then Some (fun n => if str_eqb n (bs "E_ZERO") then Some (EConst 0) else None) else None)),
    no_structs, p2, (mkPM [mkPF (bs "e") None PEnum 1 false false true [] [] None] []), [mkRF (bs "E") None],
    (fun _ => mkTI (Some (bs "example.com/x")) (bs "E") [(bs "E_ZERO", 0%Z)]), (mkRF (bs "E") None).
  split. { legal_one. all: first [ident_ex | given_ex | split; repeat constructor; intros []]. }
  split; [vm_compute; reflexivity|]. split; [|split; [reflexivity|split; [reflexivity|vm_compute; reflexivity]]].
  intros [|[|i]] f Q; try discriminate. injection Q as <-. split.
  - intros _ n z [I|[]]. injection I as <- <-. split; [|vm_compute; reflexivity].
    exists x45, (bs "_ZERO"). split; [reflexivity|]. split; [reflexivity|]. repeat (apply Forall_cons; [unfold ident_char; vm_compute; auto|]). apply Forall_nil.
  - discriminate.
  - intros p P. injection P as <-. vm_compute. split; [discriminate|]. repeat (apply Forall_cons; [unfold ident_char; vm_compute; auto|]). apply Forall_nil.
Qed.
Print Assumptions C65_package_refuted.
(** The message of Props_Gen.v: its getters, on a message in which the oneof holds the second
    member, and on one in which it holds a nil wrapper. *)
Definition ex_names := match resolveFieldConflicts ex_msg with Some l => l | None => [] end.
Definition ex_ti (i : nat) : tyinfo :=
  match i with 4%nat => mkTI (Some (bs "example.com/color")) (bs "Kind") [(bs "Kind_B", 1%Z); (bs "Kind_A", 0%Z)]
             | _ => mkTI None (bs "Msg") [] end.
Definition ex_scope : scope :=
  mkSc (fun n => if str_eqb n (bs "Msg") then Some (EType 7) else None)
       (fun q => if str_eqb q (bs "color") then
                   Some (fun n => if str_eqb n (bs "Kind_A") then Some (EConst 0) else if str_eqb n (bs "Kind_B") then Some (EConst 1) else None)
                 else None).
Ltac ident_chars := repeat (apply Forall_cons; [unfold ident_char; vm_compute; auto|]); apply Forall_nil.
Example C65_ex : resolveFieldConflicts ex_msg = Some ex_names /\
  (forall i f, nth_error (pm_fields ex_msg) i = Some f -> type_known ex_scope (pf_ty f) (ex_ti i)) /\
  (forall i p, ti_import (ex_ti i) = Some p -> path_Base p <> bs "x") /\
  let vs b := [VSlice [VNum 3] []; VIface (Some (3%nat, b)); VMap None; VNum 1; VSlice [] []] in
  let get x n := call ex_scope no_structs (struct_names (pm_fields ex_msg) ex_names) x (message_getters ex_ctx ex_msg ex_ti ex_names) 2 n in
  struct_names (pm_fields ex_msg) ex_names = [bs "Ids"; bs "ContactInfo"; bs "Attrs"; bs "Kind"; bs "Raw"] /\
  Forall2 (fun g v => wt no_structs (gf_type g) v) (struct_fields (fun s => Some s) ex_ctx ex_msg [] (pm_fields ex_msg)) (vs (Some (VPtr None))) /\
  map (get (Some (vs (Some (VPtr None))))) [bs "GetIds"; bs "GetEmail"; bs "GetPhone"; bs "GetKind"; bs "GetContactInfo"] =
    [Gret (VSlice [VNum 3] []); Gret (VStr []); Gret (VPtr None); Gret (VNum 1); Gret (VIface (Some (3%nat, Some (VPtr None))))] /\
  map (get None) [bs "GetIds"; bs "GetEmail"; bs "GetPhone"; bs "GetKind"; bs "GetContactInfo"] =
    [Gret (VSlice [] []); Gret (VStr []); Gret (VPtr None); Gret (VNum 0); Gret (VIface None)] /\
  get (Some (vs None)) (bs "GetPhone") = Gpanic /\
  GoZero ex_ctx (nth 4 ex_fields (mkPF [] None PEnum 0 false false false [] [] None)) (ex_ti 4) = bs "color.Kind_A".
Proof.
  split; [vm_compute; reflexivity|]. split; [|split; [|cbv zeta; split; [|split; [|split; [|split; [|split]]]]; try (vm_compute; reflexivity)]].
  - assert (M : type_known ex_scope (PMsg 7) (mkTI None (bs "Msg") [])).
    { split; [discriminate| |discriminate]. intros id Q. injection Q as <-. split; [|vm_compute; reflexivity].
      exists x4d, (bs "sg"). split; [reflexivity|]. split; [reflexivity|]. ident_chars. }
    assert (SC : forall s ti, ti_import ti = None -> type_known ex_scope (PScalar s) ti).
    { intros s ti N. split; [discriminate|discriminate|]. rewrite N. discriminate. }
    intros [|[|[|[|[|[|i]]]]]] f Q; try (destruct i; discriminate Q); injection Q as <-; try (apply SC; reflexivity); try exact M.
    split; [|discriminate|].
    + intros _ n z [I|[I|[]]]; injection I as <- <-; (split; [|vm_compute; reflexivity]).
      * exists x4b, (bs "ind_B"). split; [reflexivity|]. split; [reflexivity|]. ident_chars.
      * exists x4b, (bs "ind_A"). split; [reflexivity|]. split; [reflexivity|]. ident_chars.
    + intros p P. injection P as <-. split; [discriminate|]. vm_compute. ident_chars.
  - intros [|[|[|[|[|i]]]]] p P; try discriminate P. injection P as <-. vm_compute. discriminate.
  - repeat (apply Forall2_cons; [vm_compute; auto|]); [..|apply Forall2_nil]; repeat split; try discriminate; auto 10.
Qed.
