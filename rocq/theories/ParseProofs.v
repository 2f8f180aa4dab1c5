(** Facts about descriptor parsing. *)
From Coq Require Import Strings.String Init.Byte Lia ZifyBool ZifyNat ZifyN Sorting.Sorted Permutation.
From Verif Require Import Base Wire Coder MapTables Value Desc MsgSpec DescProofs GoStr TagParse Parse StrFacts.
Import StringSyntax.
Open Scope N_scope.

(** ** Validation against the field types of generated code *)

(** Shapes that validation lets through although the rest of the library has no code for
    them. *)
Inductive loose_shape : fdesc -> Prop :=
| loose_pointers : forall f t, f_T f = TSlice (TPtr t) -> (forall id, t <> TStruct id) -> loose_shape f
    (* a list of pointers to something else than a message *)
| loose_not_repeated : forall f t, f_rep f = false -> f_T f = TSlice t -> loose_shape f
    (* a list field whose tag does not say rep *)
| loose_ptr_list : forall f t, f_T f = TPtr (TSlice t) -> loose_shape f
| loose_ptr_map : forall f k v, f_T f = TPtr (TMap k v) -> loose_shape f
| loose_key_float : forall f k v, f_T f = TMap (TScalar k) v -> is_float k = true -> loose_shape f
| loose_key_ptr : forall f k v, f_T f = TMap (TPtr k) v \/ f_T f = TMap (TSlice k) v -> loose_shape f
| loose_val : forall f k v, f_T f = TMap k v ->
    (exists t, v = TSlice t) \/ (exists a b, v = TMap a b) \/
    (exists t, v = TPtr t /\ forall id, t <> TStruct id) -> loose_shape f
| loose_oneof : forall f, f_oneof f <> None -> IsSlice (f_T f) || IsMap f = true -> loose_shape f.

Lemma match_value : forall tag t, (match t with TPtr _ | TSlice _ | TMap _ _ => False | _ => True end) ->
  IsFieldTypeMatchReflectKind tag (RealKind t) = value_ok tag t.
Proof. intros tag [k| | | | | | | | ] H; try destruct H; destruct tag; try reflexivity; destruct k; reflexivity. Qed.

Lemma match_map : forall tag, IsFieldTypeMatchReflectKind tag RMap = tag_eqb tag TagBytes.
Proof. intros []; reflexivity. Qed.

Lemma match_key : forall tag k, (match k with TPtr _ | TSlice _ => False | TScalar s => is_float s = false | _ => True end) ->
  IsFieldKeyTypeMatchReflectKind tag (RealKind k) = key_ok tag k.
Proof. intros tag [k| | | | | | | | ] H; try contradiction; destruct tag; try reflexivity; destruct k; try reflexivity; discriminate. Qed.

Lemma struct_dec : forall t, (exists id, t = TStruct id) \/ forall id, t <> TStruct id.
Proof. intros []; try (right; intros; discriminate). left. eauto. Qed.

(** The element type of a list or value type of a map, accepted and not loose. *)
Lemma match_elem : forall tag t,
  (forall u, t = TSlice u -> False) -> (forall a b, t = TMap a b -> False) ->
  (forall u, t = TPtr u -> exists id, u = TStruct id) ->
  IsFieldTypeMatchReflectKind tag (RealKind t) = elem_ok tag t.
Proof.
  intros tag t H1 H2 H3. destruct t; try (rewrite match_value by exact Logic.I; reflexivity).
  - destruct (H3 t eq_refl) as (id & ->). destruct tag; reflexivity.
  - destruct (H1 t eq_refl).
  - destruct (H2 t1 t2 eq_refl).
Qed.

Lemma elem_cases : forall v, (exists t, v = TSlice t) \/ (exists a b, v = TMap a b) \/
    (exists t, v = TPtr t /\ forall id, t <> TStruct id) \/
    ((forall u, v = TSlice u -> False) /\ (forall a b, v = TMap a b -> False) /\
     (forall u, v = TPtr u -> exists id, u = TStruct id)).
Proof.
  intros [].
  all: try (right; right; right; repeat split; intros; discriminate).
  - destruct (struct_dec t) as [E|E]; [right; right; right|right; right; left; eauto].
    repeat split; intros; try discriminate. injection H as <-; assumption.
  - left. eauto.
  - right. left. eauto.
Qed.

Lemma value_struct_or : forall tag t, value_ok tag t = true -> elem_ok tag t = true.
Proof. intros tag [] H; try exact H. discriminate H. Qed.

Lemma accepted_shapes : forall f, type_ok (f_T f) = true -> checkTypeMatch f = true ->
  supported f = true \/ loose_shape f.
Proof.
  intros [i s tag rep pk kt vt T one] Hty H.
  unfold checkTypeMatch in H. cbn [f_T f_rep f_packed f_tag f_ktag f_vtag IsMap] in *.
  apply andb_prop in H as [H Hm]. apply andb_prop in H as [H Hk]. apply andb_prop in H as [Hp Hr].
  destruct T as [k| | |id|t|t|k v|alts| ]; cbn [IsSlice IsMap f_T] in *.
  1-4, 8-9: unfold IsMap in *; cbn [f_T] in *;
    (destruct rep; [cbn in Hr; discriminate|]);
    (destruct pk; [cbn in Hp; discriminate|]);
    left; unfold supported; cbn [f_T f_rep f_packed f_tag negb andb];
    rewrite <- match_value by exact Logic.I; exact Hk.
  - (* pointer *)
    unfold IsMap in *; cbn [f_T] in *.
    destruct rep; [cbn in Hr; discriminate|].
    destruct pk; [cbn in Hp; discriminate|].
    destruct t as [k| | |id|t|t|k v|alts| ].
    1-4, 8-9: left; unfold supported; cbn [f_T f_rep f_packed f_tag negb andb];
      rewrite <- match_value by exact Logic.I; exact Hk.
    + cbn in Hty. discriminate.
    + right. eapply loose_ptr_list. reflexivity.
    + right. eapply loose_ptr_map. reflexivity.
  - (* slice *)
    unfold IsMap in *; cbn [f_T] in *.
    destruct one as [w|]; [right; apply loose_oneof; [discriminate|reflexivity]|].
    destruct rep; [|right; eapply loose_not_repeated; reflexivity].
    cbn [orb] in Hr.
    destruct (elem_cases t) as [(u & ->)|[(a & b & ->)|[(u & -> & Hu)|(E1 & E2 & E3)]]].
    + discriminate Hr.
    + discriminate Hr.
    + right. eapply loose_pointers; [reflexivity|exact Hu].
    + left. unfold supported. cbn [f_T f_rep f_packed f_tag f_oneof andb].
      change (RealKind (TSlice t)) with (RealKind t) in Hk.
      rewrite match_elem in Hk by assumption. rewrite Hk. cbn [andb].
      destruct pk; [|reflexivity]. cbn in Hp.
      destruct t as [k| | |id|u|u|k v|alts| ]; try reflexivity; cbn in Hk; try discriminate Hk;
        destruct tag; try discriminate Hp; try discriminate Hk.
      all: destruct u; discriminate Hk.
  - (* map *)
    unfold IsMap in *; cbn [f_T] in *.
    destruct rep; [|discriminate Hm]. cbn [andb] in Hm. apply andb_prop in Hm as [Hkey Hval].
    destruct pk; [cbn in Hp; discriminate|].
    destruct one as [w|]; [right; apply loose_oneof; [discriminate|reflexivity]|].
    destruct (elem_cases v) as [(u & E)|[(a & b & E)|[(u & E & Hu)|(E1 & E2 & E3)]]].
    + right. eapply loose_val; [reflexivity|eauto].
    + right. eapply loose_val; [reflexivity|eauto].
    + right. eapply loose_val; [reflexivity|eauto].
    + rewrite match_elem in Hval by assumption.
      assert (K : key_ok kt k = true \/ loose_shape (mkF i s tag true false kt vt (TMap k v) None)).
      { destruct k as [sk| | |id|u|u|a b|alts| ].
        all: try (left; rewrite <- match_key by exact Logic.I; exact Hkey).
        - destruct (is_float sk) eqn:F.
          + right. eapply loose_key_float; [reflexivity|exact F].
          + left. rewrite <- match_key by exact F. exact Hkey.
        - right. eapply loose_key_ptr. left. reflexivity.
        - right. eapply loose_key_ptr. right. reflexivity. }
      destruct K as [K|K]; [left|right; exact K].
      unfold supported. cbn [f_T f_rep f_packed f_tag f_oneof f_ktag f_vtag negb andb].
      change (RealKind (TMap k v)) with RMap in Hk.
      rewrite match_map in Hk. now rewrite Hk, K, Hval.
Qed.

(** Every field type of generated code passes. *)
Lemma value_match : forall tag t, value_ok tag t = true -> IsFieldTypeMatchReflectKind tag (RealKind t) = true.
Proof.
  intros tag t H. destruct t; try discriminate H; (rewrite match_value by exact Logic.I); exact H.
Qed.
Lemma elem_match : forall tag t, elem_ok tag t = true -> IsFieldTypeMatchReflectKind tag (RealKind t) = true.
Proof.
  intros tag t H. destruct t; try (apply value_match, H).
  destruct t; try discriminate H. destruct tag; try discriminate H; reflexivity.
Qed.
Lemma key_match : forall tag t, key_ok tag t = true -> IsFieldKeyTypeMatchReflectKind tag (RealKind t) = true.
Proof.
  intros tag t H. destruct t; try discriminate H.
  - cbn in H. apply andb_prop in H as [H F]. destruct tag, k; try discriminate; reflexivity.
  - destruct tag; try discriminate; reflexivity.
Qed.

Lemma value_ty : forall tag t, value_ok tag t = true -> type_ok t = true.
Proof. intros tag [] H; try reflexivity; discriminate H. Qed.
Lemma elem_ty : forall tag t, elem_ok tag t = true -> type_ok t = true.
Proof.
  intros tag t H. destruct t; try (apply (value_ty tag), H).
  destruct t; try discriminate H. reflexivity.
Qed.
Lemma key_ty : forall tag t, key_ok tag t = true -> type_ok t = true.
Proof. intros tag [] H; try reflexivity; discriminate H. Qed.

Lemma supported_accepted : forall f, supported f = true -> type_ok (f_T f) = true /\ checkTypeMatch f = true.
Proof.
  intros [i s tag rep pk kt vt T one] H. unfold supported in H.
  unfold checkTypeMatch, IsMap. cbn [f_T f_rep f_packed f_tag f_ktag f_vtag f_oneof] in *.
  destruct T as [k| | |id|t|t|k v|alts| ].
  1-4: apply andb_prop in H as [H V]; apply andb_prop in H as [R P];
    destruct rep; try discriminate R; destruct pk; try discriminate P;
    split; [reflexivity|]; cbn [andb]; rewrite (value_match _ _ V); reflexivity.
  - apply andb_prop in H as [H V]; apply andb_prop in H as [R P];
    destruct rep; try discriminate R; destruct pk; try discriminate P.
    split; [destruct t; try reflexivity; discriminate V|].
    cbn [andb]. change (RealKind (TPtr t)) with (RealKind t). rewrite (value_match _ _ V). reflexivity.
  - apply andb_prop in H as [H P]. apply andb_prop in H as [H V]. apply andb_prop in H as [R O].
    destruct rep; try discriminate R.
    split; [cbn; apply (elem_ty _ _ V)|].
    cbn [IsSlice andb orb]. change (RealKind (TSlice t)) with (RealKind t). rewrite (elem_match _ _ V).
    rewrite !andb_true_r. apply andb_true_intro. split.
    + destruct pk; [|reflexivity]. cbn in P. destruct t; try discriminate P. cbn in V.
      destruct tag; try reflexivity; discriminate V.
    + destruct t as [k| | |id|u|u|k v|alts| ]; try reflexivity; try discriminate V.
      destruct u; try discriminate V; reflexivity.
  - apply andb_prop in H as [H V]. apply andb_prop in H as [H K]. apply andb_prop in H as [H B].
    apply andb_prop in H as [H O]. apply andb_prop in H as [R P].
    destruct rep; try discriminate R. destruct pk; try discriminate P.
    split; [cbn; now rewrite (key_ty _ _ K), (elem_ty _ _ V)|].
    cbn [andb IsSlice orb]. rewrite (key_match _ _ K), (elem_match _ _ V).
    change (RealKind (TMap k v)) with RMap. rewrite match_map, B. reflexivity.
  - apply andb_prop in H as [_ H]. discriminate H.
  - apply andb_prop in H as [_ H]. discriminate H.
Qed.

(** ** What parsing a struct type gives *)

Lemma parse_fields_spec : forall l i fs os, parse_fields i l = Some (fs, os) ->
  (forall pf, In pf fs <-> exists j g, nth_error l j = Some g /\ gf_tag g <> [] /\ parse_pfield (i + j) None g = Some pf) /\
  (forall s t, In (s, t) os <-> exists j g, nth_error l j = Some g /\ gf_tag g = [] /\ gf_oneof g <> [] /\
                                           s = (i + j)%nat /\ t = gf_type g).
Proof.
  induction l as [|g l IH]; intros i fs os H; cbn [parse_fields] in H.
  - injection H as <- <-. split.
    + intro pf. split; [intros []|]. intros (j & g & N & _). destruct j; discriminate N.
    + intros s t. split; [intros []|]. intros (j & g & N & _). destruct j; discriminate N.
  - destruct (str_eqb_spec (gf_tag g) []) as [T|T].
    + destruct (parse_fields (S i) l) as [[fs' os']|] eqn:P; [|discriminate].
      destruct (IH _ _ _ P) as [A B]. injection H as <- <-. split.
      * intro pf. rewrite A. split; intros (j & h & N & X & Y).
        -- exists (S j), h. rewrite Nat.add_succ_r. auto.
        -- destruct j as [|j]; [injection N as <-; contradiction|]. exists j, h. rewrite Nat.add_succ_r in Y. auto.
      * intros s t. destruct (str_eqb_spec (gf_oneof g) []) as [O|O].
        -- rewrite B. split; intros (j & h & N & X & Y & Z & W).
           ++ exists (S j), h. rewrite Nat.add_succ_r. auto.
           ++ destruct j as [|j]; [injection N as <-; contradiction|]. exists j, h. rewrite Nat.add_succ_r in Z. auto.
        -- cbn [In]. rewrite B. split.
           ++ intros [Q|(j & h & N & X & Y & Z & W)].
              ** injection Q as <- <-. exists 0%nat, g. rewrite Nat.add_0_r. auto.
              ** exists (S j), h. rewrite Nat.add_succ_r. auto.
           ++ intros (j & h & N & X & Y & Z & W). destruct j as [|j].
              ** injection N as <-. left. rewrite Nat.add_0_r in Z. congruence.
              ** right. exists j, h. rewrite Nat.add_succ_r in Z. auto.
    + destruct (parse_pfield i None g) as [f|] eqn:F; [|discriminate].
      destruct (parse_fields (S i) l) as [[fs' os']|] eqn:P; [|discriminate].
      destruct (IH _ _ _ P) as [A B]. injection H as <- <-. split.
      * intro pf. cbn [In]. rewrite A. split.
        -- intros [<-|(j & h & N & X & Y)].
           ++ exists 0%nat, g. rewrite Nat.add_0_r. auto.
           ++ exists (S j), h. rewrite Nat.add_succ_r. auto.
        -- intros (j & h & N & X & Y). destruct j as [|j].
           ++ injection N as <-. rewrite Nat.add_0_r in Y. left. congruence.
           ++ right. exists j, h. rewrite Nat.add_succ_r in Y. auto.
      * intros s t. rewrite B. split; intros (j & h & N & X & Y & Z & W).
        -- exists (S j), h. rewrite Nat.add_succ_r. auto.
        -- destruct j as [|j]; [injection N as <-; contradiction|]. exists j, h. rewrite Nat.add_succ_r in Z. auto.
Qed.

Lemma has_alt_lookup : forall w alts, has_alt w alts = true <-> exists t, lookup_alt w alts = Some t.
Proof.
  intros w alts. induction alts as [|[x t] alts IH]; cbn [has_alt lookup_alt].
  - split; [discriminate|intros (t & H); discriminate].
  - destruct (Nat.eqb x w); cbn [orb]; [split; eauto|exact IH].
Qed.

Lemma find_oneof_spec : forall w os s, find_oneof w os = POk (Some s) ->
  exists alts, In (s, TIface alts) os /\ has_alt w alts = true.
Proof.
  intros w os s. induction os as [|[x t] os IH]; cbn [find_oneof]; intro H; [discriminate|].
  destruct t; try discriminate. destruct (has_alt w alts) eqn:E.
  - injection H as <-. exists alts. split; [now left|assumption].
  - destruct (IH H) as (a & I & Q). exists a. split; [now right|assumption].
Qed.

Lemma parse_wrappers_spec : forall os l fs, parse_wrappers os l = POk fs ->
  forall pf, In pf fs -> exists w g s, In (w, [g]) l /\ find_oneof w os = POk (Some s) /\
    parse_pfield s (Some w) g = Some pf.
Proof.
  intros os l. induction l as [|[w fields] l IH]; intros fs H pf I; cbn [parse_wrappers] in H.
  - injection H as <-. destruct I.
  - unfold parse_wrapper in H. destruct (find_oneof w os) as [[s|]| |] eqn:F; cbn [pbind] in H; try discriminate.
    + destruct fields as [|g [|? ?]]; cbn [pbind] in H; try discriminate.
      destruct (str_eqb (gf_tag g) []); cbn [pbind] in H; try discriminate.
      destruct (parse_pfield s (Some w) g) as [f|] eqn:P; cbn [pbind] in H; try discriminate.
      destruct (parse_wrappers os l) as [fs'| |]; cbn [pbind] in H; try discriminate.
      injection H as <-. destruct I as [<-|I].
      * exists w, g, s. split; [now left|auto].
      * destruct (IH _ eq_refl pf I) as (w' & g' & s' & A & B & C). exists w', g', s'. split; [now right|auto].
    + destruct (parse_wrappers os l) as [fs'| |]; cbn [pbind] in H; try discriminate.
      injection H as <-. destruct (IH _ eq_refl pf I) as (w' & g' & s' & A & B & C). exists w', g', s'. split; [now right|auto].
Qed.

Lemma insert_pfield_map : forall f l, map pf_desc (insert_pfield f l) = insert_field (pf_desc f) (map pf_desc l).
Proof.
  intros f l. induction l as [|g l IH]; cbn [insert_pfield map insert_field]; [reflexivity|].
  destruct (f_id (pf_desc g) <? f_id (pf_desc f))%Z; cbn [map]; [now rewrite IH|reflexivity].
Qed.
Lemma sort_pfields_map : forall l, map pf_desc (sort_pfields l) = sort_fields (map pf_desc l).
Proof. induction l as [|f l IH]; cbn; [reflexivity|]. now rewrite insert_pfield_map, IH. Qed.
Lemma insert_pfield_perm : forall f l, Permutation (f :: l) (insert_pfield f l).
Proof.
  intros f l. induction l as [|g l IH]; cbn; [reflexivity|]. destruct (f_id (pf_desc g) <? f_id (pf_desc f))%Z; [|reflexivity].
  rewrite perm_swap. now constructor.
Qed.
Lemma sort_pfields_perm : forall l, Permutation l (sort_pfields l).
Proof. induction l as [|f l IH]; cbn; [reflexivity|]. rewrite <- insert_pfield_perm. now constructor. Qed.

Lemma tables_nodup : forall l m, build_tables (sort_fields l) = Some m -> NoDup (map f_id l).
Proof.
  intros l m H.
  destruct (ListDec.NoDup_dec Z.eq_dec (map f_id l)) as [N|N]; [exact N|exfalso].
  destruct (le_sorted_dup (sort_fields l) (sort_sorted l)) as (a & x & b & r & HL & E).
  { intro X. apply N. eapply Permutation_NoDup; [apply Permutation_map; symmetry; apply sort_perm|assumption]. }
  unfold build_tables in H. destruct (_ <? -1)%Z; [discriminate|].
  rewrite (fill_tables_adjacent _ _ _ _ (a ++ [x]) b r) in H; [discriminate| |].
  - rewrite HL, <- app_assoc. reflexivity.
  - exists x. split; [|assumption]. destruct a; [now left|]. cbn [app]. left.
    change (f :: a ++ [x]) with ((f :: a) ++ [x]). now rewrite last_last.
Qed.

(** Where the fields of a parsed struct come from. *)
Inductive field_of (d : godecl) (pf : pfield) : Prop :=
| field_plain j g : nth_error (d_fields d) j = Some g -> gf_tag g <> [] ->
    parse_pfield j None g = Some pf -> field_of d pf
| field_member j g w h alts : nth_error (d_fields d) j = Some g -> gf_tag g = [] -> gf_type g = TIface alts ->
    In (w, [h]) (d_wrappers d) -> has_alt w alts = true ->
    parse_pfield j (Some w) h = Some pf -> field_of d pf.

Lemma parse_struct_spec : forall d l, parse_struct d = POk l ->
  sorted_ids (map pf_desc l) /\ Forall (fun pf => (0 <= f_id (pf_desc pf))%Z) l /\
  forall pf, In pf l -> field_of d pf.
Proof.
  intros d l H. unfold parse_struct in H.
  destruct (parse_fields 0 (d_fields d)) as [[fs os]|] eqn:P; [|discriminate].
  destruct (parse_fields_spec _ _ _ _ P) as [A B].
  assert (W : exists fs', (match os with [] => POk [] | _ => parse_wrappers os (d_wrappers d) end) = POk fs' /\
                          forall pf, In pf fs' -> field_of d pf).
  { destruct os as [|o os'] eqn:O.
    - exists []. split; [reflexivity|intros ? []].
    - destruct (parse_wrappers (o :: os') (d_wrappers d)) as [fs'| |] eqn:Q; cbn [pbind] in H; try discriminate.
      exists fs'. split; [reflexivity|]. intros pf I.
      destruct (parse_wrappers_spec _ _ _ Q pf I) as (w & g & s & I1 & F & X).
      destruct (find_oneof_spec _ _ _ F) as (alts & I2 & HA).
      apply B in I2 as (j & g' & N & T & _ & E & E2). cbn in E. subst s.
      eapply field_member; eauto. }
  destruct W as (fs' & E & W). rewrite E in H. cbn [pbind] in H.
  assert (M : forall pf, In pf (sort_pfields (fs ++ fs')) -> field_of d pf).
  { intros pf I. apply Permutation_in with (l' := fs ++ fs') in I; [|symmetry; apply sort_pfields_perm].
    apply in_app_or in I as [I|I]; [|auto]. apply A in I as (j & g & N & T & X). eapply field_plain; eauto. }
  remember (sort_pfields (fs ++ fs')) as sl eqn:SL.
  destruct sl as [|f r].
  - injection H as <-. split; [constructor|]. split; [constructor|]. intros ? [].
  - destruct (f_id (pf_desc f) <? 0)%Z eqn:NEG; [discriminate|].
    destruct (build_tables (map pf_desc (f :: r))) as [m|] eqn:BT; [|discriminate].
    injection H as <-. rewrite SL, sort_pfields_map in BT.
    assert (S : sorted_ids (map pf_desc (f :: r))).
    { rewrite SL, sort_pfields_map. apply le_sorted_nodup; [apply sort_sorted|].
      eapply Permutation_NoDup; [apply Permutation_map, sort_perm|]. eapply tables_nodup, BT. }
    split; [exact S|]. split; [|exact M].
    constructor; [lia|]. cbn [map] in S. inversion S as [|? ? S1 F1]; subst.
    apply Forall_forall. intros x I. rewrite Forall_forall in F1. specialize (F1 (pf_desc x) (in_map _ _ _ I)). lia.
Qed.

Lemma finalize_field_spec : forall k v f f', finalize_field k v f = Some f' ->
  f_id f' = f_id f /\ f_slot f' = f_slot f /\ f_T f' = f_T f /\ f_oneof f' = f_oneof f /\ checkTypeMatch f' = true.
Proof.
  intros k v f f' H. unfold finalize_field in H. destruct (IsMap f).
  - destruct (parseKVTag k); [|discriminate]. destruct (parseKVTag v); [|discriminate].
    match type of H with (if checkTypeMatch ?x then _ else _) = _ => destruct (checkTypeMatch x) eqn:C end; [|discriminate].
    injection H as <-. cbn. auto.
  - destruct (checkTypeMatch f) eqn:C; [|discriminate]. injection H as <-. auto.
Qed.
Lemma finalize_fields_spec : forall l fs, finalize_fields l = Some fs ->
  Forall2 (fun pf f => finalize_field (pf_key pf) (pf_val pf) (pf_desc pf) = Some f) l fs.
Proof.
  induction l as [|pf l IH]; intros fs H; cbn [finalize_fields] in H.
  - injection H as <-. constructor.
  - destruct (finalize_field (pf_key pf) (pf_val pf) (pf_desc pf)) as [f|] eqn:F; [|discriminate].
    destruct (finalize_fields l) as [r|]; [|discriminate]. injection H as <-. constructor; auto.
Qed.

Lemma parse_pfield_spec : forall s w g pf, parse_pfield s w g = Some pf ->
  exists p, parseStructTag (gf_tag g) = Some p /\ type_ok (gf_type g) = true /\
    pf = mkP (mkF (p_id p) s (p_tag p) (p_rep p) (p_packed p) TagNone TagNone (gf_type g) w) (gf_key g) (gf_val g).
Proof.
  intros s w g pf H. unfold parse_pfield, parse_field in H.
  destruct (parseStructTag (gf_tag g)) as [p|]; [|discriminate].
  destruct (type_ok (gf_type g)); [|discriminate]. injection H as <-. eauto.
Qed.

Lemma tag_part_range : forall p s p', tag_part p s = Some p' -> (p_id p < 2^31)%Z -> (p_id p' < 2^31)%Z.
Proof.
  intros p s p' H R. unfold tag_part in H.
  repeat match type of H with (if ?b then _ else _) = _ => destruct b end; try (injection H as <-; exact R).
  destruct (encoding_word (TrimSpace s)); [injection H as <-; exact R|].
  repeat match type of H with (if ?b then _ else _) = _ => destruct b end; try (injection H as <-; exact R); try discriminate.
  destruct (ParseUint32 (TrimSpace s)) as [n|]; [|discriminate]. injection H as <-. cbn [p_id].
  unfold to_int32. pose proof (N.mod_lt n (2^32)).
  destruct (n mod 2^32 <? 2^31) eqn:L; lia.
Qed.
Lemma tag_parts_range : forall l p p', tag_parts p l = Some p' -> (p_id p < 2^31)%Z -> (p_id p' < 2^31)%Z.
Proof.
  induction l as [|s l IH]; intros p p' H R; cbn [tag_parts] in H.
  - injection H as <-. exact R.
  - destruct (tag_part p s) as [q|] eqn:E; [|discriminate]. eapply IH; [exact H|]. eapply tag_part_range; eauto.
Qed.
Lemma parseStructTag_range : forall s p, parseStructTag s = Some p -> (p_id p < 2^31)%Z.
Proof.
  intros s p H. unfold parseStructTag in H. destruct (tag_parts no_tag (Split x2c s)) as [q|] eqn:E; [|discriminate].
  destruct (tag_eqb (p_tag q) TagNone); [discriminate|]. injection H as <-. eapply tag_parts_range; [exact E|]. reflexivity.
Qed.

(** What Go itself guarantees about the declaration of a struct type. *)
Record go_decl (E : env) (d : godecl) : Prop := {
  (** the type of a oneof field lists the wrappers that implement it, with the type of the
      field of each *)
  gd_alts : forall j g alts w h, nth_error (d_fields d) j = Some g -> gf_type g = TIface alts ->
    In (w, [h]) (d_wrappers d) -> has_alt w alts = true -> lookup_alt w alts = Some (gf_type h);
  (** a type has one declaration *)
  gd_wrappers : forall w l l', In (w, l) (d_wrappers d) -> In (w, l') (d_wrappers d) -> l = l';
  (** a new struct is zero *)
  gd_zero : d_zero d = VStruct (map (fun g => zero_of E (gf_type g)) (d_fields d)) None
}.

Lemma In_Forall2_r : forall {A B} (R : A -> B -> Prop) l l' y, Forall2 R l l' -> In y l' -> exists x, In x l /\ R x y.
Proof.
  intros A B R l l' y F. induction F as [|a b l l' H F IH]; intro I; [destruct I|].
  destruct I as [<-|I]; [exists a; split; [now left|assumption]|]. destruct (IH I) as (x & J & X). exists x. split; [now right|assumption].
Qed.
Lemma Forall2_ids : forall l fs,
  Forall2 (fun pf f => finalize_field (pf_key pf) (pf_val pf) (pf_desc pf) = Some f) l fs ->
  sorted_ids (map pf_desc l) -> sorted_ids fs.
Proof.
  intros l fs F. induction F as [|pf f l fs H F IH]; intro S; [constructor|].
  cbn [map] in S. inversion S as [|? ? S1 F1]; subst. constructor; [apply IH, S1|].
  apply Forall_forall. intros g I. destruct (In_Forall2_r _ _ _ _ F I) as (x & J & X).
  rewrite Forall_forall in F1. specialize (F1 _ (in_map pf_desc _ _ J)).
  apply finalize_field_spec in H as [H _]. apply finalize_field_spec in X as [X _]. lia.
Qed.

Lemma describe_wf : forall E d s, go_decl E d -> describe d = POk s ->
  (forall f, In f (sd_fields s) -> ~ loose_shape f) ->
  (forall f, In f (sd_fields s) -> f_id f <> 0%Z) ->
  wf_sdesc E s.
Proof.
  intros E d s G H L Z0. unfold describe in H.
  destruct (parse_struct d) as [l| |] eqn:P; cbn [pbind] in H; try discriminate.
  destruct (finalize_fields l) as [fs|] eqn:F; [|discriminate]. injection H as <-. cbn [sd_fields] in *.
  destruct (parse_struct_spec _ _ P) as (S & NN & FO).
  pose proof (finalize_fields_spec _ _ F) as F2.
  pose proof (Forall2_ids _ _ F2 S) as SO.
  constructor; cbn [sd_fields sd_slots sd_zero].
  - exact SO.
  - intros f I. destruct (In_Forall2_r _ _ _ _ F2 I) as (pf & J & X).
    destruct (finalize_field_spec _ _ _ _ X) as (E1 & E2 & E3 & E4 & C).
    unfold wf_field. rewrite E1, E2, E4. cbn [sd_slots].
    assert (RP : exists g0 p0, parseStructTag (gf_tag g0) = Some p0 /\ type_ok (f_T f) = true /\ f_id (pf_desc pf) = p_id p0).
    { destruct (FO pf J) as [j g N T Q|j g w h alts N T TI IW HA Q];
        apply parse_pfield_spec in Q as (p & Q1 & Q2 & Q3); subst pf; cbn [pf_desc f_T f_id] in *; rewrite E3.
      - exists g, p. auto.
      - exists h, p. auto. }
    destruct RP as (g0 & p0 & PS & TY & ID).
    split; [|split].
    + rewrite Forall_forall in NN. specialize (NN pf J). specialize (Z0 f I). rewrite E1 in Z0.
      apply parseStructTag_range in PS. lia.
    + destruct (accepted_shapes f TY C) as [Q|Q]; [exact Q|]. destruct (L f I Q).
    + destruct (FO pf J) as [j g N T Q|j g w h alts N T TI IW HA Q];
        apply parse_pfield_spec in Q as (p & Q1 & Q2 & Q3); subst pf; cbn [pf_desc f_T f_id f_oneof f_slot] in *; rewrite E3.
      * now rewrite (map_nth_error gf_type _ _ N).
      * exists alts. split; [rewrite <- TI; now apply map_nth_error|]. eapply gd_alts; eauto.
  - intros f g I J Q.
    destruct (In_Forall2_r _ _ _ _ F2 I) as (pf & I' & Xf). destruct (In_Forall2_r _ _ _ _ F2 J) as (pg & J' & Xg).
    destruct (finalize_field_spec _ _ _ _ Xf) as (A1 & A2 & A3 & A4 & _).
    destruct (finalize_field_spec _ _ _ _ Xg) as (B1 & B2 & B3 & B4 & _).
    assert (EQ : pf = pg -> f = g). { intro; subst pg. congruence. }
    destruct (FO pf I') as [j gg N T R|j gg w h alts N T TI IW HA R];
      destruct (FO pg J') as [j' gg' N' T' R'|j' gg' w' h' alts' N' T' TI' IW' HA' R'];
      pose proof R as R0; pose proof R' as R0';
      apply parse_pfield_spec in R0 as (p & _ & _ & Rf); apply parse_pfield_spec in R0' as (p' & _ & _ & Rg);
      rewrite A2, B2, Rf, Rg in Q; cbn [pf_desc f_slot] in Q; subst j'.
    + left. apply EQ. rewrite N in N'. injection N' as <-. congruence.
    + rewrite N in N'. injection N' as <-. contradiction.
    + rewrite N in N'. injection N' as <-. contradiction.
    + destruct (Nat.eq_dec w w') as [W|W].
      * left. apply EQ. subst w'. assert (K : [h] = [h']) by (eapply gd_wrappers; eauto). injection K as <-. congruence.
      * right. exists w, w'. rewrite A4, B4, Rf, Rg. cbn. auto.
  - rewrite (gd_zero _ _ G), map_map. reflexivity.
Qed.

(** ** Panics *)
Lemma find_oneof_no_panic : forall w os, (forall s t, In (s, t) os -> exists alts, t = TIface alts) ->
  find_oneof w os <> PPanic /\ find_oneof w os <> PErr.
Proof.
  intros w os. induction os as [|[s t] os IH]; intro H; cbn [find_oneof]; [split; discriminate|].
  destruct (H s t (or_introl eq_refl)) as (alts & ->). destruct (has_alt w alts); [split; discriminate|].
  apply IH. intros s' t' I. apply (H s' t'). now right.
Qed.

Lemma parse_wrappers_no_panic : forall os l, (forall s t, In (s, t) os -> exists alts, t = TIface alts) ->
  (forall w g, In (w, [g]) l -> gf_tag g <> []) -> parse_wrappers os l <> PPanic.
Proof.
  intros os l H. induction l as [|[w fields] l IH]; intro T; cbn [parse_wrappers]; [discriminate|].
  assert (IH' : parse_wrappers os l <> PPanic) by (apply IH; intros w' g I; apply (T w' g); now right).
  unfold parse_wrapper. destruct (find_oneof_no_panic w os H) as [F1 F2].
  destruct (find_oneof w os) as [[s|]| |] eqn:F; try congruence; cbn [pbind].
  - destruct fields as [|g [|? ?]]; cbn [pbind]; try discriminate.
    rewrite (str_eqb_ne (gf_tag g) []) by (apply (T w); now left).
    destruct (parse_pfield s (Some w) g); cbn [pbind]; [|discriminate].
    destruct (parse_wrappers os l); cbn [pbind]; try discriminate. congruence.
  - destruct (parse_wrappers os l); cbn [pbind]; try discriminate. congruence.
Qed.

Lemma describe_no_panic : forall d,
  (forall g p, In g (d_fields d) \/ (exists w, In (w, [g]) (d_wrappers d)) ->
     parseStructTag (gf_tag g) = Some p -> (0 <= p_id p)%Z) ->
  (forall g, In g (d_fields d) -> gf_tag g = [] -> gf_oneof g <> [] -> exists alts, gf_type g = TIface alts) ->
  (forall w g, In (w, [g]) (d_wrappers d) -> gf_tag g <> []) ->
  describe d <> PPanic.
Proof.
  intros d NN OI WT H. unfold describe in H.
  assert (P : parse_struct d = PPanic).
  { destruct (parse_struct d) as [l| |]; cbn [pbind] in H; try congruence. destruct (finalize_fields l); congruence. }
  clear H. unfold parse_struct in P.
  destruct (parse_fields 0 (d_fields d)) as [[fs os]|] eqn:PF; [|discriminate].
  destruct (parse_fields_spec _ _ _ _ PF) as [A B].
  assert (IF : forall s t, In (s, t) os -> exists alts, t = TIface alts).
  { intros s t I. apply B in I as (j & g & N & T & O & _ & ->). eapply OI; eauto. eapply nth_error_In; eauto. }
  remember (match os with [] => POk [] | _ :: _ => parse_wrappers os (d_wrappers d) end) as ws eqn:W.
  assert (NP : ws <> PPanic).
  { subst ws. destruct os; [discriminate|]. now apply parse_wrappers_no_panic. }
  destruct ws as [fs'| |]; cbn [pbind] in P; try congruence.
  destruct (sort_pfields (fs ++ fs')) as [|f r] eqn:SP; [discriminate|].
  destruct (f_id (pf_desc f) <? 0)%Z eqn:NEG; [|destruct (build_tables _); discriminate].
  assert (I : In f (fs ++ fs')).
  { eapply Permutation_in; [symmetry; apply sort_pfields_perm|]. rewrite SP. now left. }
  assert (Q : exists g p s w, (In g (d_fields d) \/ (exists w, In (w, [g]) (d_wrappers d))) /\
     parseStructTag (gf_tag g) = Some p /\ parse_pfield s w g = Some f /\ f_id (pf_desc f) = p_id p).
  { apply in_app_or in I as [I|I].
    - apply A in I as (j & g & N & _ & X). destruct (parse_pfield_spec _ _ _ _ X) as (p & E1 & _ & E2).
      exists g, p, (0 + j)%nat, None. apply nth_error_In in N. repeat split; auto. rewrite E2. reflexivity.
    - destruct os as [|o os']; [injection W as ->; destruct I|]. symmetry in W.
      destruct (parse_wrappers_spec _ _ _ W f I) as (w & g & s & I1 & _ & X).
      destruct (parse_pfield_spec _ _ _ _ X) as (p & E1 & _ & E2).
      exists g, p, s, (Some w). repeat split; eauto. rewrite E2. reflexivity. }
  destruct Q as (g & p & s & w & IG & E1 & _ & E2). specialize (NN g p IG E1). lia.
Qed.

(** No descriptor with a supported field has one of the loose shapes. *)
Lemma supported_not_loose : forall f, supported f = true -> ~ loose_shape f.
Proof.
  intros f S L. unfold supported in S. destruct L as [f t T H|f t R T|f t T|f k v T|f k v T F|f k v T|f k v T H|f O T].
  - rewrite T in S. cbn in S. apply andb_prop in S as [S _]. apply andb_prop in S as [_ S]. destruct t; try discriminate S. now apply (H id).
  - rewrite T, R in S. discriminate.
  - rewrite T in S. rewrite andb_false_r in S. discriminate.
  - rewrite T in S. rewrite andb_false_r in S. discriminate.
  - rewrite T in S. cbn [key_ok] in S. rewrite F in S. rewrite andb_false_r in S. cbn [andb] in S. rewrite andb_false_r in S. discriminate.
  - destruct T as [T|T]; rewrite T in S; cbn [key_ok] in S; rewrite andb_false_r in S; discriminate.
  - rewrite T in S. apply andb_prop in S as [_ S]. destruct H as [(t & ->)|[(a & b & ->)|(t & -> & H)]]; try discriminate S.
    destruct t; try discriminate S. now apply (H id).
  - destruct (f_oneof f); [|congruence]. unfold IsMap in T. destruct (f_T f); try discriminate T.
    + rewrite andb_false_r in S. discriminate.
    + rewrite andb_false_r in S. discriminate.
Qed.
