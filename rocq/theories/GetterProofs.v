(** Proofs about the getters. *)
From Coq Require Import Strings.String Init.Byte.
From Verif Require Import Base Value Desc GoStr StrFacts Parse MsgSpec GenField GenNames NameSpec NameProofs ConflictProofs GenSpec GenEnum GenImport GenGetter GetterSpec.
Import StringSyntax.
Open Scope N_scope.

(** ** The zero expressions *)

Lemma eqb_neq : forall a b : bytes, a <> b -> str_eqb a b = false.
Proof. exact str_eqb_ne. Qed.
Lemma ident_not_dot : forall c, ident_char c -> beqb x2e c = false.
Proof. intros c H. destruct c; try reflexivity. exfalso. destruct H as [H|[H|[H|H]]]; vm_compute in H; discriminate. Qed.
Lemma ident_not_brace : forall c, ident_char c -> beqb c x7d = false.
Proof. intros c H. destruct c; try reflexivity. exfalso. destruct H as [H|[H|[H|H]]]; vm_compute in H; discriminate. Qed.
Lemma exported_ident : forall n, exported n -> Forall ident_char n.
Proof. intros n (c & r & -> & U & F). constructor; [|exact F]. now apply ident_upper. Qed.
Lemma ident_no_dot : forall s, Forall ident_char s -> has_dot s = false.
Proof.
  intros s H. unfold has_dot. induction H as [|c s Hc _ IH]; [reflexivity|]. cbn [existsb]. now rewrite (ident_not_dot c Hc), IH.
Qed.
Lemma dot_app : forall a b, has_dot (a ++ bs "." ++ b) = true.
Proof. intros. unfold has_dot. rewrite existsb_app. cbn. apply orb_true_r. Qed.
Lemma Cut_dot : forall a b, Forall ident_char a -> Cut x2e (a ++ bs "." ++ b) = (a, b).
Proof.
  intros a b H. induction H as [|c s Hc _ IH]; [reflexivity|]. cbn [app Cut].
  assert (Q : beqb c x2e = false). { pose proof (ident_not_dot c Hc) as D. destruct c; try reflexivity; discriminate. }
  rewrite Q. now rewrite IH.
Qed.

(** An exported name is not one of the texts below *)
Lemma exported_ne : forall n t, exported n -> match t with c :: _ => is_upper c = false | [] => True end -> n <> t.
Proof. intros n t (c & r & -> & U & F) H Q. subst t. congruence. Qed.
Definition plain_texts := [bs "nil"; bs "0"; bs "false"; dq ++ dq; bs "bool"; bs "string"; bs "[]byte"; bs "x";
  bs "float32"; bs "float64"; bs "int32"; bs "int64"; bs "uint32"; bs "uint64"].
Lemma qualified_ne : forall imp n t, exported n -> In t plain_texts -> qualified imp n <> t.
Proof.
  intros imp n t X I. destruct imp as [p|]; cbn [qualified].
  - intro Q. assert (D : has_dot t = true). { rewrite <- Q. apply dot_app. }
    cbn in I. repeat (destruct I as [<-|I]; [vm_compute in D; discriminate|]). destruct I.
  - apply exported_ne; [exact X|]. cbn in I. repeat (destruct I as [<-|I]; [reflexivity|]). destruct I.
Qed.
Lemma resolve_qualified : forall sc imp n, exported n ->
  (forall p, imp = Some p -> ident (path_Base p) /\ path_Base p <> bs "x") ->
  resolve_ident sc (qualified imp n) = visible sc imp n.
Proof.
  intros sc imp n X P. unfold resolve_ident. destruct imp as [p|]; cbn [qualified visible].
  - rewrite dot_app. destruct (P p eq_refl) as [[_ I] N]. rewrite (Cut_dot _ _ I). now rewrite (eqb_neq _ _ N).
  - rewrite (ident_no_dot _ (exported_ident _ X)). rewrite eqb_neq; [reflexivity|]. apply (qualified_ne None); [exact X|]. cbn; auto 20.
Qed.
Lemma strip_none : forall imp n, exported n -> strip_braces (qualified imp n) = None.
Proof.
  intros imp n X. pose proof (exported_ident _ X) as F. destruct X as (c & r & -> & U & _).
  assert (Q : exists a b, rev (qualified imp (c :: r)) = a :: b /\ ident_char a).
  { assert (Z : exists a b, rev (c :: r) = a :: b /\ ident_char a).
    { apply Forall_rev in F. destruct (rev (c :: r)) as [|a b] eqn:R.
      - apply (f_equal (@length byte)) in R. rewrite rev_length in R. discriminate.
      - inversion F; subst. eauto. }
    destruct Z as (a & b & R & I). destruct imp as [p|]; cbn [qualified]; [|eauto].
    rewrite !rev_app_distr, R. cbn. eauto. }
  destruct Q as (a & b & R & I). unfold strip_braces. rewrite R. destruct b; [reflexivity|]. now rewrite (ident_not_brace a I).
Qed.
Lemma strip_some : forall T, strip_braces (T ++ bs "{}") = Some T.
Proof. intro T. unfold strip_braces. rewrite rev_app_distr. cbn. now rewrite rev_involutive. Qed.

Section Zero.
Variable sc : scope.
Variable E : env.
Variable c : pctx.

Definition value_type (f : pfd) : gotype :=
  match (if pf_is_msg f then None else strip_star (GoTypeName c f)) with Some t => t | None => GoTypeName c f end.

Lemma eval_nil : forall t, match t with TPtr _ | TSlice _ | TMap _ _ | TBytes | TIface _ => True | _ => False end ->
  eval_expr sc E (bs "nil") t = Some (zero_of E t).
Proof. intros t H. unfold eval_expr. cbn [str_eqb]. destruct t; try contradiction; reflexivity. Qed.

Lemma scalar_value : forall f s, pf_kt f = None -> pf_rep f = false -> pf_ty f = PScalar s -> value_type f = scalar2GoTypes s.
Proof.
  intros f s K R T. unfold value_type, GoTypeName, pf_is_msg, pf_is_map. rewrite K, R, T. cbn [andb negb].
  cbn [type_go]. destruct (pf_is_pointer c f); [reflexivity|]. destruct s; reflexivity.
Qed.
Lemma zero_value : forall f ti,
  type_known sc (pf_ty f) ti -> (forall p, ti_import ti = Some p -> path_Base p <> bs "x") ->
  eval_expr sc E (GoZero c f ti) (value_type f) = Some (zero_of E (value_type f)).
Proof.
  intros f ti TK NX. unfold GoZero. unfold pf_is_map. destruct (pf_kt f) as [k|] eqn:K; cbn [orb].
  { rewrite eval_nil; [reflexivity|]. unfold value_type, GoTypeName, pf_is_msg, pf_is_map. rewrite K. cbn. exact Logic.I. }
  destruct (pf_rep f) eqn:R.
  { rewrite eval_nil; [reflexivity|]. unfold value_type, GoTypeName, pf_is_msg, pf_is_map. rewrite K, R. cbn.
    destruct (pf_ty f); cbn; exact Logic.I. }
  destruct (pf_ty f) as [s| |id] eqn:T.
  - rewrite (scalar_value f s K R T). unfold pf_is_msg, pf_is_map. rewrite K, T. destruct s; reflexivity.
  - assert (V : value_type f = TScalar Int32).
    { unfold value_type, GoTypeName, pf_is_msg, pf_is_map. rewrite K, R, T. cbn. destruct (pf_is_pointer c f); reflexivity. }
    rewrite V. destruct (find _ _) as [[n z]|] eqn:Q; [|reflexivity].
    destruct (find_some _ _ Q) as [I Z]. apply Z.eqb_eq in Z. cbn in Z. subst z.
    destruct (tk_enum _ _ _ TK eq_refl _ _ I) as [X Vi].
    assert (NE : forall t, In t plain_texts -> str_eqb (qualified (ti_import ti) n) t = false).
    { intros t It. apply eqb_neq. now apply qualified_ne. }
    unfold eval_expr. rewrite !NE by (cbn; auto 20). rewrite (strip_none _ _ X), resolve_qualified, Vi; [reflexivity|exact X|].
    intros p P. split; [exact (tk_import _ _ _ TK p P)|exact (NX p P)].
  - destruct (tk_msg _ _ _ TK id eq_refl) as [X Vi].
    assert (NE : forall t, In t plain_texts -> str_eqb (qualified (ti_import ti) (ti_name ti)) t = false).
    { intros t It. apply eqb_neq. now apply qualified_ne. }
    cbn [type_text existsb]. rewrite !NE by (cbn; auto 20). cbn [orb].
    assert (M : pf_is_msg f = true). { unfold pf_is_msg, pf_is_map. now rewrite K, T. }
    rewrite M. cbn [andb]. unfold value_type. rewrite M. unfold GoTypeName. rewrite K, R, T.
    unfold pf_is_pointer. rewrite M, R. unfold pf_is_map. rewrite K, T. cbn [type_go orb]. destruct (genNoPointer c f).
    + assert (NB : forall t, In t plain_texts -> str_eqb (qualified (ti_import ti) (ti_name ti) ++ bs "{}") t = false).
      { intros t It. apply eqb_neq. intro Q. assert (S : strip_braces t = Some (qualified (ti_import ti) (ti_name ti))).
        { rewrite <- Q. apply strip_some. }
        cbn in It. repeat (destruct It as [<-|It]; [vm_compute in S; discriminate|]). destruct It. }
      unfold eval_expr. rewrite !NB by (cbn; auto 20). rewrite strip_some, resolve_qualified, Vi; [|exact X|].
      * now rewrite Nat.eqb_refl.
      * intros p P. split; [exact (tk_import _ _ _ TK p P)|exact (NX p P)].
    + now rewrite eval_nil.
Qed.
End Zero.

(** ** The list of getters *)
Lemma me_field : forall c f ti n, me_name (field_getter c f ti n) = Getter n.
Proof. intros. unfold field_getter. destruct (if pf_is_msg f then _ else _); reflexivity. Qed.

Lemma getters_names : forall c m ti all u seen oo l r, resolved u seen oo l r ->
  (forall o g, (exists n, In (mkRF n (Some (o, g))) r) -> oneof_GoName all o = g) ->
  forall seen', (forall o, In o seen' <-> In o seen) -> forall i,
  map me_name (getters c m ti all seen' i l r) = getter_names r.
Proof.
  intros c m ti all u seen oo l r H. induction H as [u seen oo|u seen oo f l n r Hu N1 N2 Hm Ho R IH|u seen oo f l n o g r Hu N1 N2 Hm Ho Hs Hg N3 Hm2 R IH];
    intros A seen' S i; cbn [getters getter_names rf_oneof rf_go app map].
  - reflexivity.
  - destruct (pf_one f) as [o|] eqn:P.
    + assert (Q : existsb (Nat.eqb o) seen' = true). { apply existsb_nat, S, Ho. reflexivity. }
      rewrite Q. cbn [app map me_name member_getter]. f_equal. apply IH.
      * intros o' g (n' & I). apply A. exists n'. now right.
      * intro o'. cbn [In]. rewrite S. split; [intros [<-|I]; [now apply Ho|exact I]|now right].
    + cbn [map]. rewrite me_field. f_equal. apply IH; [|exact S]. intros o' g (n' & I). apply A. exists n'. now right.
  - rewrite Ho. assert (Q : existsb (Nat.eqb o) seen' = false).
    { destruct (existsb _ _) eqn:Q; [|reflexivity]. apply existsb_nat, S in Q. contradiction. }
    rewrite Q. cbn [app map me_name member_getter oneof_getter].
    rewrite (A o g (ex_intro _ n (or_introl eq_refl))). f_equal. f_equal. apply IH.
    + intros o' g' (n' & I). apply A. exists n'. now right.
    + intro o'. cbn [In]. now rewrite S.
Qed.

Lemma oneofs_distinct : forall u seen oo l r, resolved u seen oo l r -> forall n o g, In (mkRF n (Some (o, g))) r -> ~ In o seen.
Proof.
  intros u seen oo l r H. induction H as [u seen oo|u seen oo f l n r Hu N1 N2 Hm Ho R IH|u seen oo f l n o g r Hu N1 N2 Hm Ho Hs Hg N3 Hm2 R IH];
    intros n' o' g' I.
  - destruct I.
  - destruct I as [I|I]; [discriminate|]. exact (IH _ _ _ I).
  - destruct I as [I|I]; [injection I as <- <- <-; exact Hs|]. pose proof (IH _ _ _ I) as Q. cbn in Q. tauto.
Qed.
Lemma GoName_unique : forall u seen oo l r, resolved u seen oo l r -> forall o g, (exists n, In (mkRF n (Some (o, g))) r) -> oneof_GoName r o = g.
Proof.
  intros u seen oo l r H. induction H as [u seen oo|u seen oo f l n r Hu N1 N2 Hm Ho R IH|u seen oo f l n o g r Hu N1 N2 Hm Ho Hs Hg N3 Hm2 R IH];
    intros o' g' (n' & I); cbn [oneof_GoName rf_oneof].
  - destruct I.
  - destruct I as [I|I]; [discriminate|]. apply IH. eauto.
  - destruct (Nat.eqb_spec o o') as [<-|N].
    + destruct I as [I|I]; [congruence|]. exfalso. apply (oneofs_distinct _ _ _ _ _ R _ _ _ I). now left.
    + destruct I as [I|I]; [congruence|]. apply IH. eauto.
Qed.
Lemma resolved_of : forall m names, resolveFieldConflicts m = Some names -> resolved reserved_names [] (pm_oneofs m) (pm_fields m) names.
Proof.
  intros m names H. unfold resolveFieldConflicts in H.
  destruct (resolve_fields_spec (pm_fields m) reserved_names [] (pm_oneofs m)) as (r & E & R). rewrite E in H. now injection H as <-.
Qed.
Lemma message_getters_names : forall c m ti names, resolveFieldConflicts m = Some names ->
  map me_name (message_getters c m ti names) = getter_names names.
Proof.
  intros c m ti names H. apply resolved_of in H. unfold message_getters. eapply getters_names; [exact H| |tauto].
  exact (GoName_unique _ _ _ _ _ H).
Qed.
Lemma getters_nodup : forall c m ti names, resolveFieldConflicts m = Some names ->
  NoDup (map me_name (message_getters c m ti names)).
Proof.
  intros c m ti names H. rewrite (message_getters_names _ _ _ _ H). apply resolved_of in H. rewrite getters_gsrc.
  apply map_inj_nodup; [exact Getter_inj|]. apply gsrc_nodup. now destruct (resolved_nodup _ _ _ _ _ H).
Qed.
Lemma find_method_in : forall ms me, NoDup (map me_name ms) -> In me ms -> find_method ms (me_name me) = Some me.
Proof.
  induction ms as [|a ms IH]; intros me ND I; [destruct I|]. cbn in ND. inversion ND as [|? ? N1 N2]; subst. unfold find_method. cbn [find].
  destruct I as [->|I]; [now rewrite str_eqb_refl|].
  rewrite eqb_neq; [now apply IH|]. intro Q. apply N1. rewrite Q. now apply in_map.
Qed.

(** The i-th field has its getter, and, if it is in a oneof, so has the oneof. *)
Definition getter_of (c : pctx) (f : pfd) (ti : tyinfo) (n : bytes) (i : nat) (all : list rfield) : method :=
  match pf_one f with Some o => member_getter c f ti n i (oneof_GoName all o) | None => field_getter c f ti n end.
Lemma getters_in : forall c m ti all l r seen j, length l = length r ->
  forall i f n, nth_error l i = Some f -> nth_error r i = Some n ->
  In (getter_of c f (ti (i + j)%nat) (rf_go n) (i + j)%nat all) (getters c m ti all seen j l r) /\
  (forall o, pf_one f = Some o -> In o seen \/ In (oneof_getter c m o (oneof_GoName all o)) (getters c m ti all seen j l r)).
Proof.
  intros c m ti all. induction l as [|f l IH]; intros r seen j L i f' n' A B; [destruct i; discriminate|].
  destruct r as [|n r]; [discriminate|]. injection L as L. cbn [getters]. destruct i as [|i]; cbn [nth_error] in A, B.
  - injection A as <-. injection B as <-. unfold getter_of. cbn [Nat.add]. destruct (pf_one f) as [o|].
    + split; [rewrite in_app_iff; right; now left|]. intros o' Q. injection Q as <-.
      destruct (existsb (Nat.eqb o) seen) eqn:X; [left; now apply existsb_nat|right]. rewrite in_app_iff. left. now left.
    + split; [now left|discriminate].
  - destruct (pf_one f) as [o|].
    + destruct (IH r (o :: seen) (S j) L i f' n' A B) as [I1 I2]. rewrite Nat.add_succ_r in I1. cbn [Nat.add]. split.
      * rewrite in_app_iff. right. now right.
      * intros o' Q. destruct (I2 o' Q) as [[<-|I]|I]; [|now left|right; rewrite in_app_iff; right; now right].
        destruct (existsb (Nat.eqb o) seen) eqn:X; [left; now apply existsb_nat|right]. rewrite in_app_iff. left. now left.
    + destruct (IH r seen (S j) L i f' n' A B) as [I1 I2]. rewrite Nat.add_succ_r in I1. cbn [Nat.add]. split; [now right|].
      intros o' Q. destruct (I2 o' Q) as [I|I]; [now left|right; now right].
Qed.
Lemma resolved_length : forall u seen oo l r, resolved u seen oo l r -> length l = length r.
Proof. intros u seen oo l r H. induction H; cbn; congruence. Qed.
Lemma getter_found : forall c m ti names, resolveFieldConflicts m = Some names ->
  forall i f n, nth_error (pm_fields m) i = Some f -> nth_error names i = Some n ->
  find_method (message_getters c m ti names) (Getter (rf_go n)) = Some (getter_of c f (ti i) (rf_go n) i names) /\
  (forall o, pf_one f = Some o ->
     find_method (message_getters c m ti names) (Getter (oneof_GoName names o)) = Some (oneof_getter c m o (oneof_GoName names o))).
Proof.
  intros c m ti names H i f n A B. pose proof (getters_nodup c m ti names H) as ND. pose proof (resolved_length _ _ _ _ _ (resolved_of _ _ H)) as L.
  destruct (getters_in c m ti names _ _ [] 0 L i f n A B) as [I1 I2]. rewrite Nat.add_0_r in I1. split.
  - replace (Getter (rf_go n)) with (me_name (getter_of c f (ti i) (rf_go n) i names)); [now apply find_method_in|].
    unfold getter_of. destruct (pf_one f); [reflexivity|apply me_field].
  - intros o Q. destruct (I2 o Q) as [[]|I]. exact (find_method_in _ _ ND I).
Qed.

(** ** The fields of the struct *)
Definition slot_name (names : list rfield) (f : pfd) (n : rfield) : bytes :=
  match pf_one f with Some o => oneof_GoName names o | None => rf_go n end.
Definition slot_type (c : pctx) (m : pmsg) (f : pfd) : gotype :=
  match pf_one f with Some o => oneof_type c m o | None => GoTypeName c f end.

Lemma struct_aligned : forall U c m all u seen oo l r, resolved u seen oo l r ->
  (forall o g, (exists n, In (mkRF n (Some (o, g))) r) -> oneof_GoName all o = g) ->
  length (struct_names l r) = length (struct_fields U c m seen l) /\
  forall i f n, nth_error l i = Some f -> nth_error r i = Some n ->
    (exists o, pf_one f = Some o /\ In o seen) \/
    In (slot_name all f n, slot_type c m f) (combine (struct_names l r) (map gf_type (struct_fields U c m seen l))).
Proof.
  intros U c m all u seen oo l r H. induction H as [u seen oo|u seen oo f l n r Hu N1 N2 Hm Ho R IH|u seen oo f l n o g r Hu N1 N2 Hm Ho Hs Hg N3 Hm2 R IH];
    intro A.
  - split; [reflexivity|]. intros [|i]; discriminate.
  - destruct IH as [IH1 IH2]. { intros o' g (n' & I). apply A. exists n'. now right. }
    cbn [struct_names struct_fields rf_oneof rf_go]. destruct (pf_one f) as [o|] eqn:P.
    + assert (Q : existsb (Nat.eqb o) seen = true). { apply existsb_nat, Ho. reflexivity. }
      rewrite Q. split; [exact IH1|]. intros [|i] f' n' X Y; cbn in X, Y; [|exact (IH2 i f' n' X Y)].
      injection X as <-. left. exists o. split; [exact P|]. now apply Ho.
    + cbn [length map combine]. split; [now rewrite IH1|]. intros [|i] f' n' X Y; cbn in X, Y.
      * injection X as <-. injection Y as <-. right. left. unfold slot_name, slot_type. rewrite P. reflexivity.
      * destruct (IH2 i f' n' X Y) as [Z|Z]; [now left|right; now right].
  - destruct IH as [IH1 IH2]. { intros o' g' (n' & I). apply A. exists n'. now right. }
    cbn [struct_names struct_fields rf_oneof rf_go]. rewrite Ho.
    assert (Q : existsb (Nat.eqb o) seen = false). { destruct (existsb _ _) eqn:Q; [|reflexivity]. apply existsb_nat in Q. contradiction. }
    rewrite Q. cbn [length map combine]. split; [now rewrite IH1|].
    assert (G : oneof_GoName all o = g). { apply A. exists n. now left. }
    intros [|i] f' n' X Y; cbn in X, Y.
    + injection X as <-. injection Y as <-. right. left. unfold slot_name, slot_type. rewrite Ho, G. reflexivity.
    + destruct (IH2 i f' n' X Y) as [(o' & Z1 & [<-|Z2])|Z]; [|left; eauto|right; now right].
      right. left. unfold slot_name, slot_type. rewrite Z1, G. reflexivity.
Qed.
Lemma lookup_in : forall B (l : list (bytes * B)) n b, NoDup (map fst l) -> In (n, b) l -> lookup str_eqb l n = Some b.
Proof.
  intros B. induction l as [|[a x] l IH]; intros n b ND I; [destruct I|]. cbn in ND. inversion ND as [|? ? N1 N2]; subst. cbn [lookup].
  destruct I as [I|I].
  - injection I as -> ->. now rewrite str_eqb_refl.
  - rewrite eqb_neq; [now apply IH|]. intro Q. subst a. apply N1. exact (in_map fst _ _ I).
Qed.
Lemma fst_combine : forall A B (a : list A) (b : list B), length a = length b -> map fst (combine a b) = a.
Proof. induction a as [|x a IH]; intros [|y b] L; try discriminate; [reflexivity|]. cbn. f_equal. apply IH. now injection L. Qed.
Lemma slot_lookup : forall U c m names, resolveFieldConflicts m = Some names ->
  forall i f n, nth_error (pm_fields m) i = Some f -> nth_error names i = Some n ->
  lookup str_eqb (combine (struct_names (pm_fields m) names) (map gf_type (struct_fields U c m [] (pm_fields m)))) (slot_name names f n)
    = Some (slot_type c m f).
Proof.
  intros U c m names H i f n A B. apply resolved_of in H.
  destruct (struct_aligned U c m names _ _ _ _ _ H (GoName_unique _ _ _ _ _ H)) as [L Q].
  apply lookup_in.
  - rewrite fst_combine; [|now rewrite map_length]. apply struct_nodup. now destruct (resolved_nodup _ _ _ _ _ H).
  - destruct (Q i f n A B) as [(o & _ & [])|Z]. exact Z.
Qed.
Lemma lookup_combine2 : forall A B (R : A -> B -> Prop) n (ns : list bytes) a b x, Forall2 R a b ->
  lookup str_eqb (combine ns a) n = Some x -> exists y, lookup str_eqb (combine ns b) n = Some y /\ R x y.
Proof.
  intros A B R n ns a b x F. revert ns. induction F as [|p q a b Hr _ IH]; intros [|m ns] L; try discriminate.
  cbn in *. destruct (str_eqb m n); [injection L as <-; eauto|now apply IH].
Qed.
Lemma Forall2_mapl : forall A B C (g : A -> C) (R : C -> B -> Prop) a b, Forall2 (fun x y => R (g x) y) a b -> Forall2 R (map g a) b.
Proof. intros A B C g R a b H. induction H; constructor; assumption. Qed.

(** ** The types check *)
Lemma in_getters : forall c m ti all l r seen j, forall me, In me (getters c m ti all seen j l r) ->
  exists i f n, nth_error l i = Some f /\ nth_error r i = Some n /\
    (me = getter_of c f (ti (i + j)%nat) (rf_go n) (i + j)%nat all \/
     exists o, pf_one f = Some o /\ me = oneof_getter c m o (oneof_GoName all o)).
Proof.
  intros c m ti all. induction l as [|f l IH]; intros [|n r] seen j me I; try destruct I. cbn [getters] in I.
  assert (R : forall seen', In me (getters c m ti all seen' (S j) l r) -> exists i f' n', nth_error (f :: l) i = Some f' /\ nth_error (n :: r) i = Some n' /\
    (me = getter_of c f' (ti (i + j)%nat) (rf_go n') (i + j)%nat all \/
     exists o, pf_one f' = Some o /\ me = oneof_getter c m o (oneof_GoName all o))).
  { intros seen' I'. destruct (IH r seen' (S j) me I') as (i & f' & n' & A & B & C). exists (S i), f', n'. rewrite Nat.add_succ_r in C. auto. }
  destruct (pf_one f) as [o|] eqn:P.
  - apply in_app_or in I. destruct I as [I|[<-|I]].
    + destruct (existsb _ _); [destruct I|]. destruct I as [<-|[]]. exists 0%nat, f, n. eauto 10.
    + exists 0%nat, f, n. split; [reflexivity|]. split; [reflexivity|]. left. unfold getter_of. now rewrite P.
    + exact (R _ I).
  - destruct I as [<-|I]; [|exact (R _ I)]. exists 0%nat, f, n. split; [reflexivity|]. split; [reflexivity|]. left. unfold getter_of. now rewrite P.
Qed.
Lemma oneof_fields_in : forall o l j i f, nth_error l i = Some f -> pf_one f = Some o -> In ((i + j)%nat, f) (oneof_fields o j l).
Proof.
  intro o. induction l as [|a l IH]; intros j i f A P; [destruct i; discriminate|]. cbn [oneof_fields]. destruct i as [|i]; cbn in A.
  - injection A as ->. rewrite P, Nat.eqb_refl. now left.
  - specialize (IH (S j) i f A P). rewrite Nat.add_succ_r in IH. cbn [Nat.add]. destruct (pf_one a) as [o'|]; [|exact IH].
    destruct (Nat.eqb o' o); [now right|exact IH].
Qed.
