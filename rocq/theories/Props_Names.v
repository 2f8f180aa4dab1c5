(** Property theorems about the Go names and declarations that prutalgen generates. *)
From Coq Require Import Strings.String Init.Byte Lia.
From Verif Require Import Base GoStr StrFacts GenField GenSpec GenNames NameSpec NameProofs ConflictProofs.
Import StringSyntax.
Open Scope nat_scope.

(** C45.  Every protobuf name, dotted or not, becomes an exported Go identifier, and
    camel-casing it again changes nothing. *)
Theorem C45_identifiers : forall s, full_name s ->
  exported (GoCamelCase s) /\ GoCamelCase (GoCamelCase s) = GoCamelCase s.
Proof. intros s H. split; [apply camel_exported, H|apply camel_idem, H]. Qed.
Print Assumptions C45_identifiers.
(** snake_case becomes CamelCase. *)
Theorem C45_snake : forall l, Forall word l -> GoCamelCase (snake l) = concat (map capitalize l).
Proof. exact camel_snake. Qed.
Print Assumptions C45_snake.

Ltac ident_chars := repeat (apply Forall_cons; [vm_compute; auto; fail|]); apply Forall_nil.
Ltac name_ex := eexists _, _; split; [reflexivity|]; split; [vm_compute; auto; fail|ident_chars].
Example C45_ex : full_name (bs "_outer_msg.Inner2.x__y_1b") /\
  GoCamelCase (bs "_outer_msg.Inner2.x__y_1b") = bs "XOuterMsg_Inner2X_Y_1B" /\
  Forall word [bs "foo"; bs "bar2"] /\ GoCamelCase (bs "foo_bar2") = bs "FooBar2".
Proof.
  split; [|split; [vm_compute; reflexivity|split; [|vm_compute; reflexivity]]].
  - exists [bs "_outer_msg"; bs "Inner2"; bs "x__y_1b"]. split; [discriminate|]. split; [|reflexivity].
    repeat (apply Forall_cons; [name_ex|]). apply Forall_nil.
  - apply Forall_cons; [|apply Forall_cons; [|apply Forall_nil]].
    + exists (bs "foo"), []. split; [reflexivity|]. split; [discriminate|]. split; repeat constructor.
    + exists (bs "bar"), (bs "2"). split; [reflexivity|]. split; [discriminate|]. split; repeat constructor.
Qed.

(** C46.  [names] are the Go names of the fields and oneofs of the message [m]: [map rf_go]
    the fields', [oneof_go] the oneofs'.  They are the camel-cased names, with underscores
    added; fields, getters of fields, oneofs and the methods of messages all differ. *)
Theorem C46_fields : forall m, exists names, resolveFieldConflicts m = Some names /\
  Forall2 (fun f n => underscored (GoCamelCase (pf_name f)) (rf_go n)) (pm_fields m) names /\
  (forall f o, In f (pm_fields m) -> pf_one f = Some o ->
     exists n g, In n names /\ rf_oneof n = Some (o, g) /\ underscored (GoCamelCase (nth o (pm_oneofs m) [])) g) /\
  NoDup (map rf_go names ++ map (fun n => bs "Get" ++ n) (map rf_go names) ++ oneof_go names) /\
  forall n, In n (map rf_go names ++ map (fun n => bs "Get" ++ n) (map rf_go names) ++ oneof_go names) ->
    ~ In n message_methods.
Proof.
  intro m. unfold resolveFieldConflicts.
  destruct (resolve_fields_spec (pm_fields m) reserved_names [] (pm_oneofs m)) as (names & E & R).
  exists names. split; [exact E|]. split; [exact (resolved_names _ _ _ _ _ R)|].
  destruct (resolved_oneofs _ _ _ _ _ R) as [O1 O2]. split.
  - intros f o I Q. destruct (O1 f o I Q) as [[]|(g & G)]. eexists _, _. split; [exact G|]. split; [reflexivity|].
    eapply O2; [exact G|reflexivity].
  - destruct (resolved_nodup _ _ _ _ _ R) as [ND D]. split; [exact (split_nodup _ ND)|].
    intros n I. apply (D n). apply all_names_in. rewrite !in_app_iff in I. exact I.
Qed.
Print Assumptions C46_fields.

(** Names without conflicts are kept. *)
Theorem C46_stable : forall m names, resolveFieldConflicts m = Some names ->
  let fs := map (fun f => GoCamelCase (pf_name f)) (pm_fields m) in
  let os := map (fun o => GoCamelCase (nth o (pm_oneofs m) [])) (first_oneofs [] (pm_fields m)) in
  NoDup (fs ++ map (fun n => bs "Get" ++ n) fs ++ os) ->
  (forall n, In n (fs ++ map (fun n => bs "Get" ++ n) fs ++ os) -> ~ In n message_methods) ->
  map rf_go names = fs /\ oneof_go names = os.
Proof.
  intros m names H fs os ND D. unfold resolveFieldConflicts in H.
  destruct (resolve_fields_spec (pm_fields m) reserved_names [] (pm_oneofs m)) as (r & E & R).
  rewrite E in H. injection H as ->. exact (resolved_stable _ _ _ _ _ R ND D).
Qed.
Print Assumptions C46_stable.

Definition nf_ (name : bytes) (o : option nat) : pfd := mkPF name None (PScalar PInt32) 1 false false false [] [] o.
Example C46_ex : option_map (fun l => (map rf_go l, oneof_go l))
    (resolveFieldConflicts (mkPM [nf_ (bs "reset") None; nf_ (bs "foo_bar") None; nf_ (bs "FooBar") (Some 0);
                                  nf_ (bs "get_foo_bar") (Some 0)] [bs "get_foo_bar_"])) =
  Some ([bs "Reset_"; bs "FooBar"; bs "FooBar_"; bs "GetFooBar___"], [bs "GetFooBar__"]).
Proof. vm_compute. reflexivity. Qed.

(** C47.  [nested] are the Go names of the types nested in the message, [wrapper_names] the
    names of the wrapper types of its oneofs' fields. *)
(** False of the code: the names are not compared with each other.  A nested message A makes
    the wrapper of the field a M_A_, which is also that of the field a_. *)
Theorem C47_refuted : exists m names ws, resolveFieldConflicts m = Some names /\
  wrapper_names [bs "M_A"] (bs "M") (pm_fields m) names = Some ws /\ ~ NoDup ws /\
  map pf_name (pm_fields m) = [bs "a"; bs "a_"].
Proof.
  exists (mkPM [nf_ (bs "a") (Some 0); nf_ (bs "a_") (Some 0)] [bs "o"]).
  eexists _, _. split; [vm_compute; reflexivity|]. split; [vm_compute; reflexivity|].
  split; [|reflexivity]. intro H. inversion H as [|? ? Q _]. apply Q. left. reflexivity.
Qed.
Print Assumptions C47_refuted.
(** Wrappers always differ from the nested types; they differ from each other if no field is
    named like another one followed by underscores. *)
Theorem C47_wrappers_partial : forall m names nested msg, resolveFieldConflicts m = Some names ->
  exists ws, wrapper_names nested msg (pm_fields m) names = Some ws /\
    length ws = length (filter (fun f => match pf_one f with Some _ => true | None => false end) (pm_fields m)) /\
    (forall w, In w ws -> ~ In w nested /\ exists f n, In (f, n) (combine (pm_fields m) names) /\ pf_one f <> None /\
       underscored (msg ++ bs "_" ++ rf_go n) w /\ (~ In (msg ++ bs "_" ++ rf_go n) nested -> w = msg ++ bs "_" ++ rf_go n)) /\
    ((forall i j f f', i <> j -> nth_error (pm_fields m) i = Some f -> nth_error (pm_fields m) j = Some f' ->
        ~ underscored (GoCamelCase (pf_name f)) (GoCamelCase (pf_name f'))) -> NoDup ws).
Proof.
  intros m names nested msg H. unfold resolveFieldConflicts in H.
  destruct (resolve_fields_spec (pm_fields m) reserved_names [] (pm_oneofs m)) as (r & E & R).
  rewrite E in H. injection H as ->.
  pose proof (resolved_names _ _ _ _ _ R) as F2.
  destruct (wrapper_names_spec nested msg (pm_fields m) names (ltac:(clear -F2; induction F2; cbn; congruence))) as (ws & W & A & B).
  exists ws. split; [exact W|]. split; [|split].
  - clear -W F2. revert ws W. induction F2 as [|f n l r _ F2 IH]; intros ws W; cbn [wrapper_names filter] in *; [injection W as <-; reflexivity|].
    destruct (pf_one f); [|exact (IH ws W)]. destruct (wrapper_name nested msg (rf_go n)); [|discriminate].
    destruct (wrapper_names nested msg l r) as [ws'|]; [|discriminate]. injection W as <-. cbn. f_equal. apply IH. reflexivity.
  - intros w I. split; [exact (A w I)|]. destruct (B w I) as (f & n & k & C & O & -> & K).
    exists f, n. split; [exact C|]. split; [exact O|]. split.
    + exists k. rewrite <- !app_assoc. reflexivity.
    + intro Q. rewrite (K Q). cbn [repeat]. rewrite app_nil_r. reflexivity.
  - intro D. destruct (resolved_nodup _ _ _ _ _ R) as [ND _]. apply split_nodup, NoDup_app_iff in ND. destruct ND as [ND _].
    apply (wrapper_names_nodup _ _ _ _ _ W ND).
    intros n n' i I I' NE Q. apply In_nth_error in I. apply In_nth_error in I'. destruct I as (a & Ia), I' as (b & Ib).
    assert (G : forall l r, Forall2 (fun f n => underscored (GoCamelCase (pf_name f)) (rf_go n)) l r ->
             forall a n, nth_error r a = Some n -> exists f, nth_error l a = Some f /\ underscored (GoCamelCase (pf_name f)) (rf_go n)).
    { clear. intros l r H. induction H as [|f n l r Hf H IH]; intros [|a] n0 Q; try discriminate.
      - injection Q as <-. exists f. auto.
      - exact (IH a n0 Q). }
    destruct (G _ _ F2 a n Ia) as (f & Fa & (k & Ka)). destruct (G _ _ F2 b n' Ib) as (f' & Fb & (k' & Kb)).
    assert (AB : a <> b) by (intros ->; congruence).
    rewrite Ka, Kb in Q. rewrite <- app_assoc, <- repeat_app in Q.
    destruct (underscore_split _ _ _ _ Q) as [(j & J)|(j & J)].
    + apply (D a b f f' AB Fa Fb). exists j. exact J.
    + apply (D b a f' f (not_eq_sym AB) Fb Fa). exists j. exact J.
Qed.
Print Assumptions C47_wrappers_partial.
Example C47_ex : let m := mkPM [nf_ (bs "email") (Some 0); nf_ (bs "phone") (Some 0); nf_ (bs "x") None] [bs "contact"] in
  exists names, resolveFieldConflicts m = Some names /\
    wrapper_names [bs "M_Email"; bs "M_Email_"] (bs "M") (pm_fields m) names = Some [bs "M_Email__"; bs "M_Phone"] /\
    (forall i j f f', i <> j -> nth_error (pm_fields m) i = Some f -> nth_error (pm_fields m) j = Some f' ->
        ~ underscored (GoCamelCase (pf_name f)) (GoCamelCase (pf_name f'))).
Proof.
  cbn zeta. eexists. split; [vm_compute; reflexivity|]. split; [vm_compute; reflexivity|].
  intros i j f f' NE A B (k & Q).
  destruct i as [|[|[|i]]], j as [|[|[|j]]]; try congruence; cbn in A, B; try discriminate;
    try (destruct i; discriminate A); try (destruct j; discriminate B);
    injection A as <-; injection B as <-; vm_compute in Q; discriminate.
Qed.

(** C58.  [selectors] are the names of the struct's fields and of its methods. *)
(** False of the code: the getter of a oneof can clash with a field, and XXX_OneofWrappers
    with a field of that name. *)
Theorem C58_refuted :
  (exists m names, resolveFieldConflicts m = Some names /\
     map pf_name (pm_fields m) = [bs "a"; bs "get_foo"] /\ pm_oneofs m = [bs "foo"] /\
     ~ NoDup (selectors (mkG true false) (mkC Proto3 [] [] [] []) m names)) /\
  (exists m names, resolveFieldConflicts m = Some names /\
     map pf_name (pm_fields m) = [bs "a"; bs "XXX_OneofWrappers"] /\ pm_oneofs m = [bs "foo"] /\
     ~ NoDup (selectors (mkG false false) (mkC Proto3 [] [] [] []) m names)).
Proof.
  split.
  - exists (mkPM [nf_ (bs "a") (Some 0); nf_ (bs "get_foo") None] [bs "foo"]). eexists.
    split; [vm_compute; reflexivity|]. split; [reflexivity|]. split; [reflexivity|].
    vm_compute. intro H. inversion H as [|? ? _ H1]; subst. inversion H1 as [|? ? Q _]; subst. apply Q. right. left. reflexivity.
  - exists (mkPM [nf_ (bs "a") (Some 0); nf_ (bs "XXX_OneofWrappers") None] [bs "foo"]). eexists.
    split; [vm_compute; reflexivity|]. split; [reflexivity|]. split; [reflexivity|].
    vm_compute. intro H. inversion H as [|? ? _ H1]; subst. inversion H1 as [|? ? Q _]; subst. apply Q. right. left. reflexivity.
Qed.
Print Assumptions C58_refuted.
(** They differ if no field or oneof is named XXX_OneofWrappers and, when getters are
    generated, none has a Go name that starts with Get. *)
Theorem C58_selectors_partial : forall g c m names,
  resolveFieldConflicts m = Some names ->
  (forall f, In f (pm_fields m) -> proto_name (pf_name f)) ->
  (forall f o, In f (pm_fields m) -> pf_one f = Some o -> proto_name (nth o (pm_oneofs m) [])) ->
  let sources := map pf_name (pm_fields m) ++ map (fun o => nth o (pm_oneofs m) []) (first_oneofs [] (pm_fields m)) in
  (pm_oneofs m <> [] -> forall s, In s sources -> GoCamelCase s <> bs "XXX_OneofWrappers") ->
  (g_getter g = true -> forall s, In s sources -> ~ exists t, GoCamelCase s = bs "Get" ++ t) ->
  NoDup (selectors g c m names).
Proof.
  intros g c m names H N O sources X G.
  assert (PF : forall s, proto_name s -> full_name s).
  { intros s P. exists [s]. split; [discriminate|]. split; [auto|reflexivity]. }
  apply selectors_nodup; [exact H| | |exact X|exact G].
  - intros f I. apply PF, N, I.
  - intros f o I Q. apply PF. exact (O f o I Q).
Qed.
Print Assumptions C58_selectors_partial.
Example C58_ex :
  let m := mkPM [nf_ (bs "string") None; nf_ (bs "email") (Some 0); nf_ (bs "phone") (Some 0)] [bs "email"] in
  (forall f, In f (pm_fields m) -> proto_name (pf_name f)) /\
  (forall f o, In f (pm_fields m) -> pf_one f = Some o -> proto_name (nth o (pm_oneofs m) [])) /\
  option_map (selectors (mkG true true) (mkC Proto3 [] [] [] [bs "unknown_fields"]) m) (resolveFieldConflicts m) =
  Some [bs "String_"; bs "Email_"; bs "unknownFields"; bs "Reset"; bs "Marshal"; bs "Unmarshal";
        bs "GetString_"; bs "GetEmail_"; bs "GetEmail"; bs "GetPhone"; bs "XXX_OneofWrappers"].
Proof.
  cbn zeta. split; [|split; [|vm_compute; reflexivity]].
  - intros f [<-|[<-|[<-|[]]]]; name_ex.
  - intros f o [<-|[<-|[<-|[]]]] Q; cbn in Q; try discriminate; injection Q as <-; name_ex.
Qed.

(** C59.  [ProtoGen enums msgs] are the types generated for a file with these top-level
    enums and messages; a type is given by the path of its name. *)
(** False of the code: an enum inside a nested message is not generated. *)
Theorem C59_refuted : exists enums msgs p, distinct_names enums msgs /\ declares_enum enums msgs p /\
  ~ In (GEnum p) (ProtoGen enums msgs).
Proof.
  exists [], [MT (bs "A") [] [MT (bs "B") [bs "E"] []]], [bs "A"; bs "B"; bs "E"].
  split; [|split].
  - constructor; [constructor|repeat constructor; intros []|].
    intros n es sub [Q|[]]. injection Q as <- <- <-. constructor; [constructor|repeat constructor; intros []|].
    intros n es sub [Q|[]]. injection Q as <- <- <-. constructor; [repeat constructor; intros []|constructor|intros ? ? ? []].
  - eapply de_in; [left; reflexivity|]. eapply de_in; [left; reflexivity|]. constructor. left. reflexivity.
  - vm_compute. intuition discriminate.
Qed.
Print Assumptions C59_refuted.
(** Every message, and every enum that is not nested deeper than in a top-level message, is
    generated, nothing else is, and nothing twice. *)
Theorem C59_declarations_partial : forall enums msgs,
  (forall p, In (GMsg p) (ProtoGen enums msgs) <-> declares_msg msgs p) /\
  (forall p, In (GEnum p) (ProtoGen enums msgs) <-> declares_enum enums msgs p /\ length p <= 2) /\
  (distinct_names enums msgs -> NoDup (ProtoGen enums msgs)).
Proof.
  intros. split; [apply ProtoGen_msg|]. split; [apply ProtoGen_enum|apply ProtoGen_nodup].
Qed.
Print Assumptions C59_declarations_partial.
Example C59_ex : ProtoGen [bs "E"] [MT (bs "A") [bs "F"] [MT (bs "B") [] []]; MT (bs "C") [] []] =
  [GEnum [bs "E"]; GEnum [bs "A"; bs "F"]; GMsg [bs "A"]; GMsg [bs "A"; bs "B"]; GMsg [bs "C"]] /\
  distinct_names [bs "E"] [MT (bs "A") [bs "F"] [MT (bs "B") [] []]; MT (bs "C") [] []].
Proof.
  split; [vm_compute; reflexivity|].
  constructor; [repeat constructor; intros []|repeat constructor; cbn; intuition discriminate|].
  intros n es sub [Q|[Q|[]]]; injection Q as <- <- <-.
  - constructor; [repeat constructor; intros []|repeat constructor; intros []|].
    intros n es sub [Q|[]]. injection Q as <- <- <-. constructor; [constructor|constructor|intros ? ? ? []].
  - constructor; [constructor|constructor|intros ? ? ? []].
Qed.
