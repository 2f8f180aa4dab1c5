(** The generated fields: struct tags, packing, Go types. *)
From Coq Require Import Strings.String Init.Byte Lia ZifyBool ZifyNat ZifyN.
From Verif Require Import Base Wire Coder MapTables Value Desc MsgSpec WireProofs GoStr TagParse Parse StrFacts TagSpec TagProofs ParseProofs
  GenField GenSpec.
Import StringSyntax.
Open Scope N_scope.

(** ** Options *)
Lemma opt_get_in : forall oo n v, opt_get oo n = Some v -> In (n, v) oo.
Proof.
  induction oo as [|[m w] r IH]; intros n v H; [discriminate|]. cbn [opt_get] in H.
  destruct (opt_get r n) as [x|] eqn:Q.
  - injection H as <-. right. auto.
  - destruct (str_eqb_spec m n) as [E|E]; [|discriminate]. injection H as <-. subst. now left.
Qed.
Lemma opt_get_some : forall oo n v, In (n, v) oo -> exists w, opt_get oo n = Some w.
Proof.
  induction oo as [|[m w] r IH]; intros n v H; [destruct H|]. cbn [opt_get].
  destruct H as [H|H].
  - injection H as -> ->. destruct (opt_get r n); [eauto|]. rewrite str_eqb_refl. eauto.
  - destruct (IH _ _ H) as (x & ->). eauto.
Qed.
Lemma opt_get_none : forall oo n, opt_get oo n = None -> forall v, ~ In (n, v) oo.
Proof. intros oo n H v I. destruct (opt_get_some _ _ _ I) as (w & Q). congruence. Qed.
Lemma in_fst_unique : forall {A B} (l : list (A * B)) a b b', NoDup (map fst l) -> In (a, b) l -> In (a, b') l -> b = b'.
Proof.
  intros A B l a b b' ND. induction l as [|[x y] r IH]; intros I J; [destruct I|].
  cbn [map fst] in ND. inversion ND as [|? ? NI ND']; subst.
  destruct I as [I|I], J as [J|J].
  - congruence.
  - injection I as -> ->. destruct NI. apply (in_map fst) in J. exact J.
  - injection J as -> ->. destruct NI. apply (in_map fst) in I. exact I.
  - auto.
Qed.
Lemma opt_get_given : forall oo n v, NoDup (map fst oo) -> (opt_get oo n = Some v <-> In (n, v) oo).
Proof.
  intros oo n v ND. split; [apply opt_get_in|]. intro I.
  destruct (opt_get_some _ _ _ I) as (w & Q). rewrite Q. f_equal.
  apply opt_get_in in Q. eapply in_fst_unique; eauto.
Qed.

(** ** Packing *)
Lemma packable_spec : forall t,
  (match t with PScalar s => scalarPackedTypes s | PEnum => true | PMsg _ => false end) = true <-> packable t.
Proof. intros [[]| |]; cbn; intuition congruence. Qed.

Lemma packed_spec : forall c f, legal_field c f -> pf_kt f = None ->
  (c_edition c = Proto3 -> ~ given (pf_opts f) option_packed (bs "false")) ->
  (pf_rep f && IsPackedEncoding c f = true <-> packed_declared c f).
Proof.
  intros c f L K P3. unfold packed_declared, IsPackedEncoding, pf_is_map, given in *. rewrite K.
  rewrite andb_true_iff. rewrite <- packable_spec.
  destruct (match pf_ty f with PScalar s => scalarPackedTypes s | PEnum => true | PMsg _ => false end); cbn [negb];
    [|intuition congruence].
  destruct (lf_once _ _ L) as [N1 N2].
  assert (G1 := opt_get_given (pf_opts f)). assert (G2 := opt_get_given (c_options c)).
  destruct (c_edition c).
  - unfold opt_is. rewrite <- (G1 _ _ N1).
    destruct (opt_get (pf_opts f) option_packed) as [s|]; [|intuition congruence].
    destruct (str_eqb_spec s (bs "true")) as [E|E]; subst; intuition congruence.
  - intuition.
  - destruct (opt_get (pf_opts f) f_repeated_field_encoding) as [s|] eqn:Q.
    + rewrite G1 in Q by assumption.
      destruct (lf_encoding _ _ L s (or_introl Q)) as [->| ->]; cbn.
      * intuition.
      * split; [intuition discriminate|]. intros (_ & _ & [H|[H _]]); [|destruct (H _ Q)].
        pose proof (in_fst_unique _ _ _ _ N1 Q H) as X. vm_compute in X. discriminate.
    + pose proof (opt_get_none _ _ Q) as QN.
      destruct (opt_get (c_options c) f_repeated_field_encoding) as [s|] eqn:Q2.
      * rewrite G2 in Q2 by assumption.
        destruct (lf_encoding _ _ L s (or_intror Q2)) as [->| ->]; cbn.
        -- split; [|intuition]. intros [R _]. repeat split; auto. right. split; [exact QN|].
           intro H. pose proof (in_fst_unique _ _ _ _ N2 Q2 H) as X. vm_compute in X. discriminate.
        -- split; [intuition discriminate|]. intros (_ & _ & [H|[_ H]]); [destruct (QN _ H)|destruct (H Q2)].
      * pose proof (opt_get_none _ _ Q2) as QN2. cbn. split; [|intuition].
        intros [R _]. repeat split; auto.
Qed.

(** ** Struct tags: key:"value" pairs separated by a blank *)
Definition tag_pair (p : bytes * bytes) : bytes := fst p ++ x3a :: x22 :: snd p ++ [x22].
Definition struct_tag (l : list (bytes * bytes)) : bytes := join x20 (map tag_pair l).
Fixpoint assoc (k : bytes) (l : list (bytes * bytes)) : option bytes :=
  match l with [] => None | (n, v) :: r => if str_eqb k n then Some v else assoc k r end.

Definition text_char (c : byte) : Prop := 32 <= b2n c < 127 /\ c <> x22 /\ c <> x5c.
Definition pair_ok (p : bytes * bytes) : Prop :=
  fst p <> [] /\ Forall (fun c => key_char c = true) (fst p) /\ Forall text_char (snd p).

Lemma span_key_spec : forall k r, Forall (fun c => key_char c = true) k ->
  (match r with [] => True | c :: _ => key_char c = false end) -> span_key (k ++ r) = (k, r).
Proof.
  intros k r F H. induction F as [|c k K F IH]; cbn [app].
  - destruct r as [|c r]; [reflexivity|]. cbn [span_key]. now rewrite H.
  - cbn [span_key]. now rewrite K, IH.
Qed.
Lemma span_quoted_spec : forall v r, Forall text_char v -> span_quoted (v ++ x22 :: r) = Some (v, r).
Proof.
  intros v r F. induction F as [|c v (_ & K1 & K2) F IH]; cbn [app span_quoted].
  - reflexivity.
  - unfold quote. destruct (beqb_spec c x22); [contradiction|]. destruct (beqb_spec c x5c); [contradiction|].
    now rewrite IH.
Qed.
Lemma key_char_not_blank : forall c, key_char c = true -> beqb c x20 = false.
Proof. intros c H. destruct (beqb_spec c x20); [subst; discriminate|reflexivity]. Qed.

Lemma Lookup_spec : forall U l fuel key pre, unquotes U -> Forall pair_ok l -> (length l < fuel)%nat ->
  (pre = [] \/ pre = [x20]) ->
  Lookup_go U fuel (match l with [] => [] | _ => pre ++ struct_tag l end) key = assoc key l.
Proof.
  intros U l. induction l as [|[k v] l IH]; intros fuel key pre HU F L P.
  - destruct fuel; reflexivity.
  - inversion F as [|? ? (K1 & K2 & K3) F']; subst. cbn [fst snd] in *.
    destruct fuel as [|fuel]; [cbn in L; lia|].
    assert (D : drop_while (fun c => beqb c x20) (pre ++ struct_tag ((k, v) :: l)) = struct_tag ((k, v) :: l)).
    { destruct k as [|a k]; [congruence|]. inversion K2 as [|? ? K4 _]; subst.
      match goal with |- drop_while _ (_ ++ ?t) = _ => assert (X : exists t', t = a :: t') end.
      { destruct l; unfold struct_tag, tag_pair; cbn [map join app fst snd]; eauto. }
      destruct X as (t' & ->). destruct P as [->| ->]; cbn [app drop_while]; [|change (beqb x20 x20) with true; cbn iota];
        now rewrite (key_char_not_blank a K4). }
    cbn [Lookup_go]. rewrite D.
    assert (T : struct_tag ((k, v) :: l) = k ++ x3a :: x22 :: v ++ x22 :: match l with [] => [] | _ => [x20] ++ struct_tag l end).
    { unfold struct_tag. cbn [map join]. unfold tag_pair at 1. cbn [fst snd].
      destruct l as [|p l]; cbn [map join].
      - unfold tag_pair. cbn [fst snd]. reflexivity.
      - unfold tag_pair at 1. cbn [fst snd]. rewrite <- !app_assoc. cbn [app]. now rewrite <- app_assoc. }
    rewrite T, span_key_spec; [|assumption|reflexivity].
    destruct k as [|a k]; [congruence|].
    change (beqb x3a x3a && beqb x22 quote) with true. cbn iota.
    rewrite span_quoted_spec by assumption.
    cbn [assoc]. destruct (str_eqb key (a :: k)).
    + apply HU. exact K3.
    + apply IH; auto. cbn in L. lia.
Qed.
Lemma struct_tag_length : forall l, Forall pair_ok l -> (length l <= length (struct_tag l))%nat.
Proof.
  intros l F. induction F as [|[k v] l _ F IH]; [cbn; lia|].
  unfold struct_tag in *. cbn [map join length]. destruct (map tag_pair l) as [|p q] eqn:Q.
  - destruct l; [|discriminate]. unfold tag_pair. cbn [fst snd]. rewrite app_length. cbn [length]. lia.
  - rewrite app_length. cbn [length]. lia.
Qed.
Lemma Get_spec : forall U l key, unquotes U -> Forall pair_ok l ->
  Get U (struct_tag l) key = match assoc key l with Some v => v | None => [] end.
Proof.
  intros U l key HU F. unfold Get.
  pose proof (struct_tag_length l F) as L.
  pose proof (Lookup_spec U l (Datatypes.S (length (struct_tag l))) key [] HU F) as H. cbn [app] in H.
  destruct l as [|p l]; [reflexivity|]. rewrite H; [reflexivity|lia|now left].
Qed.

(** ** The generated tag *)
Definition pf_label (f : pfd) : label :=
  if pf_rep f || pf_is_map f then Rep else if pf_req f then Req else Opt.
Definition main_enc (f : pfd) : tagtype := if pf_is_map f then TagBytes else wire_encoding (pf_ty f).

Lemma EncodingType_spec : forall t, EncodingType t = enc_word (wire_encoding t).
Proof. intros [[]| |]; reflexivity. Qed.
Lemma wire_encoding_ok : forall t, is_encoding (wire_encoding t) = true.
Proof. intros [[]| |]; reflexivity. Qed.
Lemma main_enc_ok : forall f, is_encoding (main_enc f) = true.
Proof. intro f. unfold main_enc. destruct (pf_is_map f); [reflexivity|apply wire_encoding_ok]. Qed.

Definition main_tag (c : pctx) (f : pfd) : bytes :=
  join x2c ([enc_word (main_enc f); FormatUint (Z.to_N (pf_num f)); label_word (pf_label f)] ++
            flag_part (bs "packed") ((pf_rep f || pf_is_map f) && IsPackedEncoding c f) ++
            [bs "name=" ++ pf_name f]).
Definition tag_pairs (c : pctx) (f : pfd) : list (bytes * bytes) :=
  [(bs "protobuf", main_tag c f); (bs "json", pf_name f ++ bs ",omitempty")] ++
  match pf_kt f with
  | Some k => [(bs "protobuf_key", enc_word (wire_encoding (PScalar k)) ++ bs ",1,opt,name=key");
               (bs "protobuf_val", enc_word (wire_encoding (pf_ty f)) ++ bs ",2,opt,name=value")]
  | None => []
  end.

Ltac app_norm := repeat first [rewrite <- app_assoc | rewrite <- app_comm_cons]; cbn [app].

Lemma FieldStructTag_pairs : forall c f, (0 <= pf_num f)%Z -> FieldStructTag c f = struct_tag (tag_pairs c f).
Proof.
  intros c f H. unfold FieldStructTag, struct_tag, tag_pairs, main_tag, main_enc, pf_label.
  replace (FormatInt (pf_num f)) with (FormatUint (Z.to_N (pf_num f)))
    by (unfold FormatInt; replace (pf_num f <? 0)%Z with false by lia; reflexivity).
  rewrite EncodingType_spec. set (num := FormatUint _). set (w := enc_word (wire_encoding (pf_ty f))).
  unfold pf_is_map.
  destruct (pf_kt f) as [k|] eqn:K.
  - change (scalar2encodingType k) with (EncodingType (PScalar k)). rewrite EncodingType_spec.
    set (wk := enc_word _).
    rewrite orb_true_r. cbn [andb].
    destruct (IsPackedEncoding c f); cbn [map app join tag_pair flag_part fst snd label_word enc_word bs list_byte_of_string dq];
      unfold dq; cbn [app]; app_norm; reflexivity.
  - rewrite orb_false_r. cbn [andb].
    destruct (pf_rep f), (IsPackedEncoding c f), (pf_req f);
      cbn [andb map app join tag_pair flag_part fst snd label_word bs list_byte_of_string dq];
      unfold dq; cbn [app]; app_norm; reflexivity.
Qed.

Lemma ident_text : forall c, ident_char c -> text_char c /\ plain_char c /\ c <> x2c.
Proof.
  intros c H. unfold ident_char, is_digit, is_lower, is_upper in H.
  assert (R : (48 <= b2n c <= 57) \/ (97 <= b2n c <= 122) \/ (65 <= b2n c <= 90) \/ b2n c = 95).
  { destruct H as [H|[H|[H|H]]]; [lia|lia|lia|]. subst. right. right. right. reflexivity. }
  unfold text_char, plain_char.
  assert (b2n x22 = 34 /\ b2n x5c = 92 /\ b2n x2c = 44) as (A & B & D) by (repeat split; reflexivity).
  repeat split; try lia; intro Q; rewrite Q in R; lia.
Qed.
Lemma text_app : forall a b, Forall text_char a -> Forall text_char b -> Forall text_char (a ++ b).
Proof. intros. apply Forall_app. auto. Qed.
Lemma text_join : forall l, Forall (Forall text_char) l -> Forall text_char (join x2c l).
Proof.
  intros l F. induction F as [|s l H F IH]; [constructor|]. cbn [join]. destruct l; [exact H|].
  apply text_app; [exact H|]. constructor; [|exact IH]. vm_compute; intuition discriminate.
Qed.
Lemma text_name : forall s, ident s -> Forall text_char s.
Proof. intros s [_ H]. eapply Forall_impl; [|exact H]. intros c Q. apply (ident_text c Q). Qed.
Ltac text_lit := repeat constructor; vm_compute; intuition discriminate.
Lemma text_enc : forall t, Forall text_char (enc_word t).
Proof. intros []; text_lit. Qed.
Lemma text_num : forall n, Forall text_char (FormatUint n).
Proof.
  intro n. apply Forall_forall. intros c I. apply ident_text. left.
  pose proof (FormatUint_digit n) as F. rewrite forallb_forall in F. now apply F.
Qed.
Lemma text_label : forall l, Forall text_char (label_word l).
Proof. intros []; text_lit. Qed.

Lemma pairs_ok : forall c f, ident (pf_name f) -> Forall pair_ok (tag_pairs c f).
Proof.
  intros c f H. unfold tag_pairs. apply Forall_app. split.
  - constructor; [|constructor; [|constructor]].
    + split; [discriminate|]. split; [repeat constructor|]. cbn [snd]. unfold main_tag. apply text_join.
      constructor; [apply text_enc|]. constructor; [apply text_num|]. constructor; [apply text_label|].
      apply Forall_app. split; [destruct (_ && _); constructor; [text_lit|constructor]|].
      constructor; [|constructor]. apply text_app; [text_lit|now apply text_name].
    + split; [discriminate|]. split; [repeat constructor|]. apply text_app; [now apply text_name|text_lit].
  - destruct (pf_kt f); [|constructor].
    constructor; [|constructor; [|constructor]].
    + split; [discriminate|]. split; [repeat constructor|]. apply text_app; [apply text_enc|text_lit].
    + split; [discriminate|]. split; [repeat constructor|]. apply text_app; [apply text_enc|text_lit].
Qed.

Lemma main_tag_read : forall c f, ident (pf_name f) -> (0 <= pf_num f < 2^31)%Z ->
  parseStructTag (main_tag c f) =
  Some (mkTag (pf_num f) (main_enc f) (match pf_label f with Req => true | _ => false end)
              (match pf_label f with Rep => true | _ => false end)
              ((pf_rep f || pf_is_map f) && IsPackedEncoding c f)).
Proof.
  intros c f H R. unfold parseStructTag, main_tag.
  rewrite app_assoc, Split_join.
  - rewrite Split_none.
    + rewrite <- app_assoc, parts_read.
      * cbn [p_tag]. pose proof (main_enc_ok f) as Q. destruct (main_enc f); try discriminate Q; cbn [tag_eqb];
          rewrite Z2N.id by lia; reflexivity.
      * apply main_enc_ok.
      * lia.
      * constructor; [|constructor]. apply (assign_ignored x6e (bs "ame")). vm_compute; auto.
    + apply comma_free_app; [no_eq|]. intro I. destruct H as [_ H]. rewrite Forall_forall in H.
      destruct (ident_text _ (H _ I)) as (_ & _ & Q). congruence.
  - constructor; [apply comma_free_enc|]. constructor; [apply comma_free_num|]. constructor; [apply comma_free_label|].
    destruct (_ && _); constructor; [no_eq|constructor].
Qed.

Lemma kv_read : forall t rest, is_encoding t = true -> parseKVTag (enc_word t ++ x2c :: rest) = Some t.
Proof.
  intros t rest H. unfold parseKVTag. rewrite Split_app, Split_none by apply comma_free_enc.
  cbn [app kv_parts]. destruct t; try discriminate H; reflexivity.
Qed.

(** What the runtime reads. *)
Lemma gen_tags : forall U c f, unquotes U -> ident (pf_name f) -> (0 <= pf_num f < 2^31)%Z ->
  parseStructTag (gf_tag (FieldGen U c f)) =
    Some (mkTag (pf_num f) (main_enc f) (match pf_label f with Req => true | _ => false end)
                (match pf_label f with Rep => true | _ => false end)
                ((pf_rep f || pf_is_map f) && IsPackedEncoding c f)) /\
  (forall k, pf_kt f = Some k ->
     parseKVTag (gf_key (FieldGen U c f)) = Some (wire_encoding (PScalar k)) /\
     parseKVTag (gf_val (FieldGen U c f)) = Some (wire_encoding (pf_ty f))) /\
  gf_tag (FieldGen U c f) <> [] /\ gf_oneof (FieldGen U c f) = [].
Proof.
  intros U c f HU HI HN. unfold FieldGen, reflect_field. cbn [gf_tag gf_key gf_val gf_oneof].
  rewrite FieldStructTag_pairs by lia.
  rewrite !Get_spec by (auto using pairs_ok).
  repeat split.
  - change (assoc (bs "protobuf") (tag_pairs c f)) with (Some (main_tag c f)). cbn iota. now apply main_tag_read.
  - replace (assoc (bs "protobuf_key") (tag_pairs c f))
      with (Some (enc_word (wire_encoding (PScalar k)) ++ bs ",1,opt,name=key"))
      by (unfold tag_pairs; rewrite H; reflexivity).
    apply kv_read, wire_encoding_ok.
  - replace (assoc (bs "protobuf_val") (tag_pairs c f))
      with (Some (enc_word (wire_encoding (pf_ty f)) ++ bs ",2,opt,name=value"))
      by (unfold tag_pairs; rewrite H; reflexivity).
    apply kv_read, wire_encoding_ok.
  - change (assoc (bs "protobuf") (tag_pairs c f)) with (Some (main_tag c f)). cbn iota.
    intro Q. pose proof (main_tag_read c f HI HN) as X. rewrite Q in X. discriminate.
  - unfold tag_pairs. destruct (pf_kt f); reflexivity.
Qed.

(** ** Go types *)
Lemma scalar_go : forall s, scalar2GoTypes s = go_scalar s.
Proof. intros []; reflexivity. Qed.
Lemma dir_has_spec : forall dd d, dir_has dd d = true <-> In d dd.
Proof.
  intros dd d. unfold dir_has. rewrite existsb_exists. split.
  - intros (x & I & Q). destruct (str_eqb_spec x d); [now subst|discriminate].
  - intro I. exists d. split; [exact I|apply str_eqb_refl].
Qed.
Lemma genNoPointer_spec : forall c f, NoDup (map fst (pf_opts f)) -> (genNoPointer c f = true <-> no_pointer c f).
Proof.
  intros c f N. unfold genNoPointer, no_pointer, given.
  rewrite <- !dir_has_spec.
  destruct (dir_has (pf_dirs f) (bs "no_pointer")); [intuition|].
  destruct (dir_has (c_msgdirs c) (bs "no_pointer")); [intuition|].
  rewrite <- opt_get_given by assumption.
  destruct (opt_get (pf_opts f) (bs "(gogoproto.nullable)")) as [v|]; [|intuition discriminate].
  unfold isfalse. destruct (str_eqb_spec v (bs "false")) as [E|E]; subst; intuition congruence.
Qed.
Lemma genNoPointer_false : forall c f, NoDup (map fst (pf_opts f)) -> genNoPointer c f = false -> ~ no_pointer c f.
Proof. intros c f N H Q. apply genNoPointer_spec in Q; [congruence|assumption]. Qed.

Lemma goTypeName_spec : forall c f, NoDup (map fst (pf_opts f)) ->
  go_elem c f (goTypeName (pf_ty f) (genNoPointer c f)).
Proof.
  intros c f N. destruct (pf_ty f) as [s| |id] eqn:T; cbn [goTypeName type_go].
  - rewrite scalar_go. now constructor.
  - now constructor.
  - destruct (genNoPointer c f) eqn:Q.
    + apply ge_val; [exact T|]. now apply genNoPointer_spec.
    + apply ge_msg; [exact T|]. now apply genNoPointer_false.
Qed.

(** explicit presence as the generator computes it for fields that are not in a oneof *)
Lemma presence_spec : forall c f, legal_field c f ->
  (c_edition c = Edition2023 -> ~ given (pf_opts f) f_field_presence (bs "LEGACY_REQUIRED")) ->
  ((if pf_opt f then true else
    match c_edition c with
    | Proto2 => true
    | Edition2023 =>
        match opt_get (pf_opts f) f_field_presence with
        | Some s => str_eqb s (bs "EXPLICIT")
        | None => match opt_get (c_options c) f_field_presence with
                  | Some s => str_eqb s (bs "EXPLICIT")
                  | None => true
                  end
        end
    | Proto3 => false
    end) = true <-> explicit_presence c f).
Proof.
  intros c f L LR. unfold explicit_presence, given in *.
  destruct (pf_opt f); [intuition|].
  destruct (lf_once _ _ L) as [N1 N2].
  destruct (c_edition c); [intuition|intuition discriminate|].
  specialize (LR eq_refl).
  destruct (opt_get (pf_opts f) f_field_presence) as [s|] eqn:Q.
  - apply opt_get_in in Q. destruct (lf_presence _ _ L s Q) as [->|[->| ->]]; [| |contradiction].
    + split; [|reflexivity]. intros _. right. split; [|left; eauto].
      intro H. pose proof (in_fst_unique _ _ _ _ N1 Q H) as X. vm_compute in X. discriminate.
    + split; [discriminate|]. intros [H|[H _]]; [discriminate|contradiction].
  - pose proof (opt_get_none _ _ Q) as QN.
    destruct (opt_get (c_options c) f_field_presence) as [s|] eqn:Q2.
    + apply opt_get_in in Q2. destruct (lf_file_presence _ _ L s Q2) as [->| ->].
      * split; [|reflexivity]. intros _. right. split; [apply QN|]. right.
        intro H. pose proof (in_fst_unique _ _ _ _ N2 Q2 H) as X. vm_compute in X. discriminate.
      * split; [discriminate|]. intros [H|[_ [(v & H)|H]]]; [discriminate|destruct (QN _ H)|contradiction].
    + split; [|reflexivity]. intros _. right. split; [apply QN|]. right. apply (opt_get_none _ _ Q2).
Qed.

Lemma GoTypeName_spec : forall c f, legal_field c f ->
  (c_edition c = Edition2023 -> ~ given (pf_opts f) f_field_presence (bs "LEGACY_REQUIRED")) ->
  go_field c f (GoTypeName c f).
Proof.
  intros c f L LR. pose proof (lf_once _ _ L) as [N1 _].
  pose proof (goTypeName_spec c f N1) as GE.
  unfold GoTypeName. destruct (pf_kt f) as [k|] eqn:K.
  - rewrite scalar_go. now apply gt_map.
  - destruct (pf_rep f) eqn:R; [now apply gt_list|].
    unfold pf_is_pointer. unfold pf_is_msg, pf_is_map. rewrite K, R. cbn [orb negb andb].
    destruct (genNoPointer c f) eqn:NP.
    + apply gt_value; auto.
      * destruct (pf_ty f); exact GE.
      * right. left. now apply genNoPointer_spec.
    + pose proof (genNoPointer_false c f N1 NP) as NP'.
      destruct (pf_ty f) as [s| |id] eqn:T.
      * assert (TB : (match type_go (PScalar s) with TBytes => true | _ => false end) = true <-> s = PBytes)
          by (destruct s; cbn; intuition discriminate).
        destruct (match type_go (PScalar s) with TBytes => true | _ => false end).
        { apply gt_value; auto. right. right. right. right. rewrite T. f_equal. now apply TB. }
        assert (NB : PScalar s <> PScalar PBytes) by (intro X; injection X as X; apply TB in X; discriminate).
        pose proof (presence_spec c f L LR) as PS. cbn [goTypeName] in GE.
        destruct (pf_opt f) eqn:O.
        { assert (pf_one f = None). { destruct (pf_one f) as [o|] eqn:PO; [|reflexivity]. destruct (lf_one _ _ L _ PO) as (_ & _ & X). congruence. }
          apply gt_ptr; auto; try rewrite T; try discriminate; try assumption. now apply PS. }
        destruct (pf_one f) eqn:PO; [apply gt_value; auto; left; congruence|].
        match goal with |- go_field c f (if ?b then _ else _) => destruct b end.
        { apply gt_ptr; auto; try rewrite T; try discriminate; try assumption. now apply PS. }
        apply gt_value; auto. right. right. left. intro X. apply PS in X. discriminate.
      * cbn [type_go] in *. pose proof (presence_spec c f L LR) as PS. cbn [goTypeName type_go] in GE.
        destruct (pf_opt f) eqn:O.
        { assert (pf_one f = None). { destruct (pf_one f) as [o|] eqn:PO; [|reflexivity]. destruct (lf_one _ _ L _ PO) as (_ & _ & X). congruence. }
          apply gt_ptr; auto; try rewrite T; try discriminate; try assumption. now apply PS. }
        destruct (pf_one f) eqn:PO; [apply gt_value; auto; left; congruence|].
        match goal with |- go_field c f (if ?b then _ else _) => destruct b end.
        { apply gt_ptr; auto; try rewrite T; try discriminate; try assumption. now apply PS. }
        apply gt_value; auto. right. right. left. intro X. apply PS in X. discriminate.
      * cbn [type_go goTypeName] in *. apply gt_value; auto. right. right. right. left. eauto.
Qed.

(** ** Directives *)
Lemma dir_is_set_spec : forall dd d, d <> [] -> ~ (In d dd /\ In (bs "no_" ++ d) dd) ->
  match dir_is_set dd d with
  | Some true => In d dd
  | Some false => In (bs "no_" ++ d) dd /\ ~ In d dd
  | None => ~ In d dd /\ ~ In (bs "no_" ++ d) dd
  end.
Proof.
  intros dd d NE. induction dd as [|s r IH]; intros ND; cbn [dir_is_set]; [cbn [In]; auto|].
  destruct (str_eqb s d) eqn:Q1.
  - destruct (str_eqb_spec s d); [now left|discriminate].
  - assert (N1 : s <> d) by (intros ->; rewrite str_eqb_refl in Q1; discriminate).
    destruct (str_eqb s (bs "no_" ++ d)) eqn:Q2.
    + destruct (str_eqb_spec s (bs "no_" ++ d)) as [Q3|]; [|discriminate]. split; [now left|]. intros [A|A]; [auto|]. apply ND. split; [now right|now left].
    + assert (N2 : s <> bs "no_" ++ d) by (intros ->; rewrite str_eqb_refl in Q2; discriminate).
      assert (ND' : ~ (In d r /\ In (bs "no_" ++ d) r)) by (intros [A B]; apply ND; split; now right).
      specialize (IH ND'). destruct (dir_is_set r d) as [[]|]; cbn [In]; tauto.
Qed.

Lemma unknown_spec : forall c, ~ (on (c_msgdirs c) /\ off (c_msgdirs c)) -> ~ (on (c_dirs c) /\ off (c_dirs c)) ->
  NoDup (map fst (c_msgoptions c)) -> NoDup (map fst (c_options c)) ->
  (genUnknownFields c = true <-> keeps_unknown c).
Proof.
  intros c D1 D2 N1 N2. unfold genUnknownFields, keeps_unknown, on, off, given in *.
  change (bs "no_unknown_fields") with (bs "no_" ++ bs "unknown_fields") in *.
  set (d := bs "unknown_fields") in *. assert (NE : d <> []) by discriminate.
  pose proof (dir_is_set_spec _ d NE D1) as S1. pose proof (dir_is_set_spec _ d NE D2) as S2.
  destruct (dir_is_set (c_msgdirs c) d) as [[]|]; [tauto|intuition discriminate|].
  destruct (dir_is_set (c_dirs c) d) as [[]|]; [tauto|intuition discriminate|].
  set (n1 := bs "(gogoproto.goproto_unrecognized)") in *. set (n2 := bs "(gogoproto.goproto_unrecognized_all)") in *.
  assert (T : forall v, istrue v = true <-> v = bs "true").
  { intro v. unfold istrue. destruct (str_eqb_spec v (bs "true")); intuition congruence. }
  rewrite <- (opt_get_given _ n1 _ N1), <- (opt_get_given _ n2 _ N2).
  destruct (opt_get (c_msgoptions c) n1) as [v|] eqn:G1.
  - rewrite T. apply opt_get_in in G1. split.
    + intros ->. tauto.
    + intros [A|(_ & [A|(_ & [A|(A & _)])])]; [tauto|tauto|congruence|]. now destruct (A v).
  - pose proof (opt_get_none _ _ G1) as H. destruct (opt_get (c_options c) n2) as [v|].
    + rewrite T. split; [intros ->; right; split; [tauto|]; right; split; [tauto|]; right; auto|].
      intros [A|(_ & [A|(_ & [A|(_ & A)])])]; [tauto|tauto|congruence|congruence].
    + split; [discriminate|]. intros [A|(_ & [A|(_ & [A|(_ & A)])])]; [tauto|tauto|congruence|congruence].
Qed.
