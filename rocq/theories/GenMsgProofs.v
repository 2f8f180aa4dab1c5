(** The generated messages are accepted by the runtime. *)
From Coq Require Import Strings.String Init.Byte Lia ZifyBool ZifyNat ZifyN Permutation Sorted.
From Verif Require Import Base Wire Coder MapTables Value Desc MsgSpec WireProofs GoStr TagParse Parse StrFacts TagSpec TagProofs DescProofs ParseProofs
  GenField GenSpec GenFieldProofs.
Import StringSyntax.
Open Scope N_scope.

Definition base_desc (c : pctx) (f : pfd) (slot : nat) (w : option nat) : fdesc :=
  mkF (pf_num f) slot (main_enc f) (pf_rep f || pf_is_map f)
      ((pf_rep f || pf_is_map f) && IsPackedEncoding c f) TagNone TagNone (GoTypeName c f) w.
Definition gen_desc (c : pctx) (f : pfd) (slot : nat) (w : option nat) : fdesc :=
  mkF (pf_num f) slot (main_enc f) (pf_rep f || pf_is_map f)
      ((pf_rep f || pf_is_map f) && IsPackedEncoding c f)
      (match pf_kt f with Some k => wire_encoding (PScalar k) | None => TagNone end)
      (match pf_kt f with Some _ => wire_encoding (pf_ty f) | None => TagNone end) (GoTypeName c f) w.

Lemma label_rep : forall f, (match pf_label f with Rep => true | _ => false end) = pf_rep f || pf_is_map f.
Proof. intro f. unfold pf_label. destruct (_ || _); [reflexivity|]. destruct (pf_req f); reflexivity. Qed.

Lemma elem_supported : forall c f, elem_ok (wire_encoding (pf_ty f)) (goTypeName (pf_ty f) (genNoPointer c f)) = true.
Proof. intros c f. destruct (pf_ty f) as [[]| |id]; cbn; try reflexivity. destruct (genNoPointer c f); reflexivity. Qed.
Lemma value_supported : forall f, value_ok (wire_encoding (pf_ty f)) (type_go (pf_ty f)) = true.
Proof. intros f. destruct (pf_ty f) as [[]| |id]; reflexivity. Qed.
Lemma key_supported : forall k, map_key k -> key_ok (wire_encoding (PScalar k)) (scalar2GoTypes k) = true.
Proof. intros [] H; try reflexivity; destruct H. Qed.

Lemma gen_supported : forall c f slot w, legal_field c f -> (w <> None -> pf_one f <> None) ->
  supported (gen_desc c f slot w) = true.
Proof.
  intros c f slot w L W. unfold supported, gen_desc. cbn [f_T f_rep f_packed f_oneof f_tag f_ktag f_vtag].
  unfold GoTypeName, main_enc, pf_is_map. destruct (pf_kt f) as [k|] eqn:K.
  - destruct (lf_map _ _ L _ K) as (M1 & M2 & M3 & M4 & M5).
    rewrite orb_true_r. unfold IsPackedEncoding, pf_is_map. rewrite K. cbn [andb negb tag_eqb].
    rewrite key_supported, elem_supported by assumption.
    destruct w; [destruct W; [discriminate|assumption]|reflexivity].
  - destruct (pf_rep f) eqn:R.
    + cbn [orb andb]. rewrite elem_supported.
      destruct w as [w|].
      { destruct (pf_one f) as [o|] eqn:O; [|destruct W; [discriminate|reflexivity]].
        destruct (lf_one _ _ L _ O) as (X & _). congruence. }
      cbn [andb]. unfold IsPackedEncoding, pf_is_map. rewrite K.
      destruct (pf_ty f) as [[]| |id]; cbn; try reflexivity; now rewrite orb_true_r.
    + cbn [orb andb]. pose proof (value_supported f) as V.
      destruct (pf_is_pointer c f); cbn [negb andb].
      * exact V.
      * destruct (pf_ty f) as [[]| |id]; exact V.
Qed.

Lemma main_supported_type : forall c f slot w, legal_field c f -> (w <> None -> pf_one f <> None) ->
  type_ok (GoTypeName c f) = true /\ checkTypeMatch (gen_desc c f slot w) = true.
Proof.
  intros c f slot w L W. destruct (supported_accepted _ (gen_supported c f slot w L W)) as [A B]. auto.
Qed.

Lemma gen_parse : forall U c f slot w, unquotes U -> legal_field c f -> (w <> None -> pf_one f <> None) ->
  parse_pfield slot w (FieldGen U c f) =
  Some (mkP (base_desc c f slot w) (gf_key (FieldGen U c f)) (gf_val (FieldGen U c f))).
Proof.
  intros U c f slot w HU L W.
  pose proof (lf_num _ _ L) as R.
  destruct (gen_tags U c f HU (lf_name _ _ L)) as (A & _); [lia|].
  unfold parse_pfield, parse_field. rewrite A, label_rep. cbn [p_id p_tag p_rep p_packed].
  change (gf_type (FieldGen U c f)) with (GoTypeName c f).
  destruct (main_supported_type c f slot w L W) as [-> _]. reflexivity.
Qed.
Lemma gen_finalize : forall U c f slot w, unquotes U -> legal_field c f -> (w <> None -> pf_one f <> None) ->
  finalize_field (gf_key (FieldGen U c f)) (gf_val (FieldGen U c f)) (base_desc c f slot w) = Some (gen_desc c f slot w).
Proof.
  intros U c f slot w HU L W.
  pose proof (lf_num _ _ L) as R.
  destruct (gen_tags U c f HU (lf_name _ _ L)) as (_ & B & _); [lia|].
  destruct (main_supported_type c f slot w L W) as [_ C].
  unfold finalize_field, IsMap. cbn [base_desc f_T].
  destruct (pf_kt f) as [k|] eqn:K.
  - assert (T : exists a b, GoTypeName c f = TMap a b) by (unfold GoTypeName; rewrite K; eauto).
    destruct T as (a & b & T). rewrite T. destruct (B k eq_refl) as [-> ->].
    cbn [f_id f_slot f_tag f_rep f_packed f_oneof base_desc].
    unfold gen_desc in *. rewrite K, T in *. rewrite C. reflexivity.
  - assert (E : base_desc c f slot w = gen_desc c f slot w) by (unfold base_desc, gen_desc; rewrite K; reflexivity).
    assert (T : (match GoTypeName c f with TMap _ _ => true | _ => false end) = false).
    { unfold GoTypeName. rewrite K. destruct (pf_rep f); [reflexivity|]. destruct (pf_is_pointer c f); [reflexivity|].
      destruct (pf_ty f) as [[]| |]; reflexivity. }
    rewrite T, E, C. reflexivity.
Qed.

(** ** Messages *)
Fixpoint enum (i : nat) (l : list pfd) : list (nat * pfd) :=
  match l with [] => [] | f :: r => (i, f) :: enum (S i) r end.
Lemma enum_nth : forall l i j f, In (j, f) (enum i l) <-> exists k, j = (i + k)%nat /\ nth_error l k = Some f.
Proof.
  induction l as [|g l IH]; intros i j f; cbn [enum In].
  - split; [intros []|]. intros (k & _ & H). destruct k; discriminate.
  - rewrite IH. split.
    + intros [H|(k & -> & H)]; [injection H as <- <-; exists 0%nat; split; [lia|reflexivity]|].
      exists (S k). split; [lia|exact H].
    + intros ([|k] & -> & H); [left; injection H as <-; f_equal; lia|]. right. exists k. split; [lia|exact H].
Qed.
Lemma oneof_fields_in : forall o l i j f,
  In (j, f) (oneof_fields o i l) <-> In (j, f) (enum i l) /\ pf_one f = Some o.
Proof.
  intros o. induction l as [|g l IH]; intros i j f; cbn [oneof_fields enum In]; [tauto|].
  specialize (IH (S i) j f).
  destruct (pf_one g) as [o'|] eqn:O.
  - destruct (Nat.eqb_spec o' o) as [Q|Q]; cbn [In]; rewrite IH.
    + split; [intros [H|H]; [injection H as <- <-; split; [now left|congruence]|tauto]|tauto].
    + split; [tauto|]. intros [[H|H] X]; [injection H as <- <-; congruence|tauto].
  - rewrite IH. split; [tauto|]. intros [[H|H] X]; [injection H as <- <-; congruence|tauto].
Qed.

Fixpoint plain_fields (i : nat) (l : list pfd) : list (nat * pfd) :=
  match l with
  | [] => []
  | f :: r => match pf_one f with None => (i, f) :: plain_fields (S i) r | Some _ => plain_fields (S i) r end
  end.

Lemma concat_insert : forall {A} (g g' : nat -> list A) x o l, In o l -> NoDup l ->
  g' o = x :: g o -> (forall p, p <> o -> g' p = g p) ->
  Permutation (concat (map g' l)) (x :: concat (map g l)).
Proof.
  intros A g g' x o l I N H1 H2. induction l as [|p l IH]; [destruct I|].
  inversion N as [|? ? NI N']; subst. cbn [map concat].
  destruct (Nat.eq_dec p o) as [->|NE].
  - rewrite H1. cbn [app]. constructor. apply Permutation_app_head.
    replace (map g' l) with (map g l); [reflexivity|]. apply map_ext_in. intros q J.
    symmetry. apply H2. intro; subst; contradiction.
  - destruct I as [->|I]; [congruence|]. rewrite (H2 _ NE), (IH I N').
    apply Permutation_sym, Permutation_middle.
Qed.
Lemma fields_perm : forall n l i, (forall f o, In f l -> pf_one f = Some o -> (o < n)%nat) ->
  Permutation (plain_fields i l ++ concat (map (fun o => oneof_fields o i l) (seq 0 n))) (enum i l).
Proof.
  intros n. induction l as [|f l IH]; intros i H.
  - cbn [plain_fields enum app]. replace (concat _) with (@nil (nat * pfd)); [reflexivity|].
    generalize 0%nat. clear. induction n as [|n IH]; intro k; cbn; [reflexivity|apply IH].
  - specialize (IH (S i)). assert (IH' := IH (fun g o I => H g o (or_intror I))). clear IH.
    cbn [plain_fields enum]. destruct (pf_one f) as [o|] eqn:O.
    + rewrite <- IH'. etransitivity; [|symmetry; apply Permutation_middle].
      apply Permutation_app_head.
      assert (L : (o < n)%nat) by (apply (H f); [now left|assumption]).
      apply (concat_insert (fun o => oneof_fields o (S i) l) _ (i, f) o).
      * apply in_seq. lia.
      * apply seq_NoDup.
      * cbn [oneof_fields]. rewrite O, Nat.eqb_refl. reflexivity.
      * intros p NE. cbn [oneof_fields]. rewrite O. destruct (Nat.eqb_spec o p); [congruence|reflexivity].
    + cbn [app]. constructor.
      replace (map (fun o => oneof_fields o i (f :: l)) (seq 0 n)) with (map (fun o => oneof_fields o (S i) l) (seq 0 n)); [exact IH'|].
      apply map_ext. intro o. cbn [oneof_fields]. now rewrite O.
Qed.

Lemma map_snd_enum : forall l i, map snd (enum i l) = l.
Proof. induction l as [|f l IH]; intro i; cbn; [reflexivity|]. now rewrite IH. Qed.
Lemma enum_unique : forall l i j f g, In (j, f) (enum i l) -> In (j, g) (enum i l) -> f = g.
Proof.
  intros l i j f g A B. apply enum_nth in A as (k & -> & A). apply enum_nth in B as (k' & E & B).
  assert (k' = k) by lia. subst. congruence.
Qed.

Lemma oneof_tag : forall U name, unquotes U -> ident name ->
  Get U (bs "protobuf_oneof:" ++ dq ++ name ++ dq) (bs "protobuf") = [] /\
  Get U (bs "protobuf_oneof:" ++ dq ++ name ++ dq) (bs "protobuf_oneof") = name.
Proof.
  intros U name HU HI.
  assert (E : bs "protobuf_oneof:" ++ dq ++ name ++ dq = struct_tag [(bs "protobuf_oneof", name)]) by reflexivity.
  rewrite E.
  assert (F : Forall pair_ok [(bs "protobuf_oneof", name)]).
  { constructor; [|constructor]. split; [discriminate|]. split; [repeat constructor|]. now apply text_name. }
  split; rewrite Get_spec by assumption; reflexivity.
Qed.

Section Message.
Variable U : bytes -> option bytes.
Variable c : pctx.
Variable m : pmsg.
Hypothesis HU : unquotes U.
Hypothesis LM : legal_message c m.

Definition from_plain (p : nat * pfd) (pf : pfield) : Prop := exists s,
  pf = mkP (base_desc c (snd p) s None) (gf_key (FieldGen U c (snd p))) (gf_val (FieldGen U c (snd p))).
Definition from_member (p : nat * pfd) (pf : pfield) : Prop := exists s,
  pf = mkP (base_desc c (snd p) s (Some (fst p))) (gf_key (FieldGen U c (snd p))) (gf_val (FieldGen U c (snd p))).

Lemma oneof_name : forall f o, In f (pm_fields m) -> pf_one f = Some o -> ident (nth o (pm_oneofs m) []).
Proof.
  intros f o I O. pose proof (lm_names _ _ LM) as F. rewrite Forall_forall in F. apply F.
  apply nth_In. eapply lm_oneofs; eauto.
Qed.

Lemma parse_gen : forall l seen slot i, incl l (pm_fields m) ->
  exists fs os, parse_fields slot (struct_fields U c m seen l) = Some (fs, os) /\
    Forall2 from_plain (plain_fields i l) fs /\
    (forall s t, In (s, t) os -> exists o, t = oneof_type c m o) /\
    (forall f o, In f l -> pf_one f = Some o -> ~ In o seen -> exists s, In (s, oneof_type c m o) os).
Proof.
  intros l. induction l as [|f l IH]; intros seen slot i HI.
  - exists [], []. repeat split; [constructor|intros s t []|intros f o []].
  - assert (IF : In f (pm_fields m)) by (apply HI; now left).
    assert (IL : incl l (pm_fields m)) by (intros x X; apply HI; now right).
    pose proof (lm_fields _ _ LM) as LF. rewrite Forall_forall in LF. specialize (LF f IF).
    cbn [struct_fields plain_fields]. destruct (pf_one f) as [o|] eqn:O.
    + destruct (existsb (Nat.eqb o) seen) eqn:X.
      * destruct (IH seen slot (S i) IL) as (fs & os & P & A & B & C).
        exists fs, os. repeat split; auto. intros g o' [<-|I] Q NS; [|eauto].
        apply existsb_exists in X as (y & Y & E). apply Nat.eqb_eq in E. subst y. congruence.
      * destruct (IH (o :: seen) (S slot) (S i) IL) as (fs & os & P & A & B & C).
        destruct (oneof_tag U _ HU (oneof_name f o IF O)) as [T1 T2].
        exists fs, ((slot, oneof_type c m o) :: os).
        split; [|split; [exact A|split]].
        -- cbn [parse_fields]. unfold reflect_field at 1. cbn [gf_tag]. rewrite T1. cbn [str_eqb].
           rewrite P. unfold reflect_field at 1. cbn [gf_oneof]. rewrite T2.
           rewrite str_eqb_ne; [reflexivity|]. apply (oneof_name f o IF O).
        -- intros s t [Q|Q]; [injection Q as <- <-; eauto|eauto].
        -- intros g o' I Q NS. destruct (Nat.eq_dec o' o) as [->|NE]; [exists slot; now left|].
           destruct I as [<-|I]; [congruence|]. destruct (C g o' I Q) as (s & J); [|exists s; now right].
           intros [E|E]; [congruence|contradiction].
    + destruct (IH seen (S slot) (S i) IL) as (fs & os & P & A & B & C).
      pose proof (lf_num _ _ LF) as R.
      destruct (gen_tags U c f HU (lf_name _ _ LF)) as (_ & _ & T1 & _); [lia|].
      eexists (_ :: fs), os. split; [|split; [|split]].
      * cbn [parse_fields]. rewrite str_eqb_ne by exact T1.
        rewrite gen_parse by (auto; congruence). rewrite P. reflexivity.
      * constructor; [eexists; reflexivity|exact A].
      * exact B.
      * intros g o' [<-|I] Q NS; [congruence|eauto].
Qed.

Lemma find_gen : forall w os, (forall s t, In (s, t) os -> exists alts, t = TIface alts) ->
  (exists s alts, In (s, TIface alts) os /\ has_alt w alts = true) -> exists s, find_oneof w os = POk (Some s).
Proof.
  intros w os. induction os as [|[s t] os IH]; intros H (s0 & alts & I & Q); [destruct I|].
  destruct (H s t (or_introl eq_refl)) as (a & ->). cbn [find_oneof].
  destruct (has_alt w a) eqn:E; [eauto|]. apply IH; [intros; apply (H s1 t); now right|].
  destruct I as [I|I]; [injection I as -> ->; congruence|]. eauto.
Qed.
Lemma has_alt_in : forall w alts, has_alt w alts = true <-> In w (map fst alts).
Proof.
  intros w alts. induction alts as [|[x t] r IH]; cbn [has_alt map fst In]; [intuition discriminate|].
  rewrite orb_true_iff, IH, Nat.eqb_eq. reflexivity.
Qed.
Lemma oneof_has : forall j f o, In (j, f) (enum 0 (pm_fields m)) -> pf_one f = Some o ->
  exists alts, oneof_type c m o = TIface alts /\ has_alt j alts = true.
Proof.
  intros j f o I O. unfold oneof_type. eexists. split; [reflexivity|]. apply has_alt_in.
  rewrite map_map. cbn [fst]. apply in_map_iff. exists (j, f). split; [reflexivity|]. apply oneof_fields_in. auto.
Qed.

Lemma parse_wrappers_gen : forall os ps,
  (forall s t, In (s, t) os -> exists o, t = oneof_type c m o) ->
  (forall p, In p ps -> In p (enum 0 (pm_fields m)) /\ exists o, pf_one (snd p) = Some o /\ exists s, In (s, oneof_type c m o) os) ->
  exists fs, parse_wrappers os (map (fun p => (fst p, [FieldGen U c (snd p)])) ps) = POk fs /\ Forall2 from_member ps fs.
Proof.
  intros os ps HO. induction ps as [|[j f] ps IH]; intro HP.
  - exists []. split; [reflexivity|constructor].
  - destruct (IH (fun p I => HP p (or_intror I))) as (fs & P & F).
    destruct (HP _ (or_introl eq_refl)) as (I & o & O & s & J). cbn [fst snd] in *.
    assert (IF : In f (pm_fields m)). { apply enum_nth in I as (k & _ & N). eapply nth_error_In, N. }
    pose proof (lm_fields _ _ LM) as LF. rewrite Forall_forall in LF. specialize (LF f IF).
    pose proof (lf_num _ _ LF) as R.
    destruct (gen_tags U c f HU (lf_name _ _ LF)) as (_ & _ & T1 & _); [lia|].
    destruct (oneof_has j f o I O) as (alts & TY & HA).
    destruct (find_gen j os) as (s' & FO).
    { intros x t X. destruct (HO _ _ X) as (o' & ->). unfold oneof_type. eauto. }
    { exists s, alts. rewrite <- TY. auto. }
    eexists (_ :: fs). split.
    + cbn [map parse_wrappers]. unfold parse_wrapper. cbn [fst snd]. rewrite FO.
      rewrite str_eqb_ne by exact T1. rewrite gen_parse by (auto; congruence).
      cbn [pbind]. rewrite P. cbn [pbind app]. reflexivity.
    + constructor; [|exact F]. exists s'. reflexivity.
Qed.

Lemma concat_map_map : forall {A B C} (h : B -> C) (g : A -> list B) l,
  concat (map (fun a => map h (g a)) l) = map h (concat (map g l)).
Proof. intros. rewrite concat_map, map_map. reflexivity. Qed.

Definition members : list (nat * pfd) :=
  concat (map (fun o => oneof_fields o 0 (pm_fields m)) (seq 0 (length (pm_oneofs m)))).
Lemma wrappers_members : wrappers U c m = map (fun p => (fst p, [FieldGen U c (snd p)])) members.
Proof. unfold wrappers, members. apply concat_map_map. Qed.
Lemma members_in : forall j f, In (j, f) members -> In (j, f) (enum 0 (pm_fields m)) /\ exists o, pf_one f = Some o.
Proof.
  intros j f H. unfold members in H. apply in_concat in H as (l & I & J). apply in_map_iff in I as (o & <- & _).
  apply oneof_fields_in in J as [J O]. eauto.
Qed.
Lemma plain_in : forall l i j f, In (j, f) (plain_fields i l) -> In (j, f) (enum i l) /\ pf_one f = None.
Proof.
  induction l as [|g l IH]; intros i j f H; [destruct H|]. cbn [plain_fields enum] in *.
  destruct (pf_one g) eqn:O.
  - apply IH in H as [H Q]. split; [now right|assumption].
  - destruct H as [H|H]; [injection H as <- <-; split; [now left|assumption]|].
    apply IH in H as [H Q]. split; [now right|assumption].
Qed.

Definition from (p : nat * pfd) (pf : pfield) : Prop := exists s,
  pf = mkP (base_desc c (snd p) s (option_map (fun _ => fst p) (pf_one (snd p))))
           (gf_key (FieldGen U c (snd p))) (gf_val (FieldGen U c (snd p))).

Lemma parse_struct_gen : forall E size, exists ps l,
  parse_struct (MessageGen U E size c m) = POk l /\ Permutation ps (enum 0 (pm_fields m)) /\ Forall2 from ps l.
Proof.
  intros E size. unfold parse_struct, MessageGen. cbn [d_fields d_wrappers].
  destruct (parse_gen (pm_fields m) [] 0 0 (incl_refl _)) as (fs & os & P & A & B & C).
  rewrite P. rewrite wrappers_members.
  assert (W : exists fs', (match os with [] => POk [] | _ => parse_wrappers os (map (fun p => (fst p, [FieldGen U c (snd p)])) members) end) = POk fs'
              /\ Forall2 from_member members fs').
  { assert (HM : forall p, In p members -> In p (enum 0 (pm_fields m)) /\ exists o, pf_one (snd p) = Some o /\ exists s, In (s, oneof_type c m o) os).
    { intros [j f] I. apply members_in in I as (I & o & O). split; [exact I|]. exists o. split; [exact O|].
      apply (C f o); auto. apply enum_nth in I as (k & _ & N). eapply nth_error_In, N. }
    destruct os as [|x os'].
    - exists []. split; [reflexivity|]. destruct members as [|p r]; [constructor|].
      destruct (HM p (or_introl eq_refl)) as (_ & o & _ & s & []).
    - apply parse_wrappers_gen; auto. }
  destruct W as (fs' & -> & F'). cbn [pbind].
  assert (F : Forall2 from (plain_fields 0 (pm_fields m) ++ members) (fs ++ fs')).
  { apply Forall2_app.
    - clear - A. assert (H : forall p, In p (plain_fields 0 (pm_fields m)) -> pf_one (snd p) = None).
      { intros [j f] I. apply plain_in in I as [_ I]. exact I. }
      induction A as [|p pf l l' X F IH]; [constructor|]. constructor.
      + destruct X as (s & ->). exists s. rewrite (H p (or_introl eq_refl)). reflexivity.
      + apply IH. intros q I. apply H. now right.
    - clear - F'. assert (H : forall p, In p members -> exists o, pf_one (snd p) = Some o).
      { intros [j f] I. apply members_in in I as [_ I]. exact I. }
      induction F' as [|p pf l l' X F IH]; [constructor|]. constructor.
      + destruct X as (s & ->). exists s. destruct (H p (or_introl eq_refl)) as (o & ->). reflexivity.
      + apply IH. intros q I. apply H. now right. }
  assert (PE : Permutation (plain_fields 0 (pm_fields m) ++ members) (enum 0 (pm_fields m))).
  { apply fields_perm. intros f o I O. eapply lm_oneofs; eauto. }
  assert (IDS : map f_id (map pf_desc (fs ++ fs')) = map pf_num (map snd (plain_fields 0 (pm_fields m) ++ members))).
  { clear - F. induction F as [|p pf l l' (s & ->) F IH]; cbn [map]; [reflexivity|]. now rewrite IH. }
  assert (ND : NoDup (map f_id (map pf_desc (fs ++ fs')))).
  { rewrite IDS. eapply Permutation_NoDup; [apply Permutation_map, Permutation_map; symmetry; exact PE|].
    rewrite map_snd_enum. apply (lm_nums _ _ LM). }
  assert (RG : Forall (fun f => (1 <= f_id f < 2^31)%Z) (map pf_desc (fs ++ fs'))).
  { apply Forall_forall. intros d I. apply (in_map f_id) in I. rewrite IDS in I.
    apply in_map_iff in I as (f & Q & I).
    apply (Permutation_in _ (Permutation_map snd PE)) in I. rewrite map_snd_enum in I.
    pose proof (lm_fields _ _ LM) as LF. rewrite Forall_forall in LF. specialize (LF f I).
    pose proof (lf_num _ _ LF) as R. lia. }
  destruct (proj1 (lookup_tables _ RG) ND) as (m0 & m1 & BT & _).
  rewrite <- sort_pfields_map in BT.
  set (sl := sort_pfields (fs ++ fs')) in *.
  assert (PS : Permutation (fs ++ fs') sl) by apply sort_pfields_perm.
  assert (FS : exists ps, Permutation ps (plain_fields 0 (pm_fields m) ++ members) /\ Forall2 from ps sl).
  { clear - PS F. revert F. generalize (plain_fields 0 (pm_fields m) ++ members) as q. induction PS as [|x l l' PS IH|x y l|l l' l'' P1 IH1 P2 IH2]; intros q F.
    - inversion F; subst. exists []. split; [reflexivity|constructor].
    - inversion F as [|p ? q' ? X F']; subst. destruct (IH _ F') as (r & R1 & R2). exists (p :: r). split; [now constructor|now constructor].
    - inversion F as [|p ? q' ? X F']; subst. inversion F' as [|p' ? q'' ? X' F'']; subst.
      exists (p' :: p :: q''). split; [apply perm_swap|]. constructor; [assumption|]. constructor; assumption.
    - destruct (IH1 _ F) as (r & R1 & R2). destruct (IH2 _ R2) as (r' & R3 & R4). exists r'. split; [now rewrite R3|assumption]. }
  destruct FS as (ps & PP & FS).
  exists ps, sl. split; [|split; [now rewrite PP|exact FS]].
  destruct sl as [|f r] eqn:SL; [reflexivity|].
  assert (NN : (f_id (pf_desc f) <? 0)%Z = false).
  { rewrite Forall_forall in RG. assert (I : In (pf_desc f) (map pf_desc (fs ++ fs'))).
    { apply in_map. eapply Permutation_in; [symmetry; exact PS|]. now left. }
    specialize (RG _ I). lia. }
  rewrite NN, BT. reflexivity.
Qed.

Definition result (p : nat * pfd) (d : fdesc) : Prop := exists s,
  d = gen_desc c (snd p) s (option_map (fun _ => fst p) (pf_one (snd p))).

Lemma finalize_gen : forall ps l, (forall p, In p ps -> legal_field c (snd p)) -> Forall2 from ps l ->
  exists fs, finalize_fields l = Some fs /\ Forall2 result ps fs.
Proof.
  intros ps l H F. induction F as [|p pf ps l (s & ->) F IH].
  - exists []. split; [reflexivity|constructor].
  - destruct (IH (fun q I => H q (or_intror I))) as (fs & Q & R).
    eexists (_ :: fs). split.
    + cbn [finalize_fields pf_key pf_val pf_desc]. rewrite gen_finalize.
      * rewrite Q. reflexivity.
      * exact HU.
      * apply H. now left.
      * destruct (pf_one (snd p)); cbn; congruence.
    + constructor; [exists s; reflexivity|exact R].
Qed.

Lemma describe_gen : forall E size, exists s ps,
  describe (MessageGen U E size c m) = POk s /\ Permutation ps (enum 0 (pm_fields m)) /\ Forall2 result ps (sd_fields s) /\
  sd_unknown s = genUnknownFields c.
Proof.
  intros E size. destruct (parse_struct_gen E size) as (ps & l & P & PE & F).
  unfold describe. rewrite P. cbn [pbind].
  destruct (finalize_gen ps l) as (fs & Q & R).
  { intros [j f] I. apply (Permutation_in _ PE) in I. apply enum_nth in I as (k & _ & N).
    pose proof (lm_fields _ _ LM) as LF. rewrite Forall_forall in LF. apply LF. eapply nth_error_In, N. }
  { exact F. }
  rewrite Q. eexists _, ps. split; [reflexivity|]. cbn [sd_fields sd_unknown]. auto.
Qed.

Lemma struct_fields_iface : forall l seen g alts, In g (struct_fields U c m seen l) -> gf_type g = TIface alts ->
  exists o, TIface alts = oneof_type c m o.
Proof.
  induction l as [|f l IH]; intros seen g alts I T; [destruct I|]. cbn [struct_fields] in I.
  destruct (pf_one f) as [o|].
  - destruct (existsb (Nat.eqb o) seen); [eauto|]. destruct I as [<-|I]; [|eauto].
    cbn in T. exists o. symmetry. exact T.
  - destruct I as [<-|I]; [|eauto]. exfalso. cbn [FieldGen reflect_field gf_type] in T. unfold GoTypeName in T.
    destruct (pf_kt f); [discriminate|]. destruct (pf_rep f); [discriminate|]. destruct (pf_is_pointer c f); [discriminate|].
    destruct (pf_ty f) as [[]| |]; discriminate.
Qed.
Lemma wrapper_in : forall w l, In (w, l) (wrappers U c m) -> exists f, l = [FieldGen U c f] /\ In (w, f) (enum 0 (pm_fields m)).
Proof.
  intros w l H. rewrite wrappers_members in H. apply in_map_iff in H as ([j f] & Q & I). injection Q as <- <-.
  apply members_in in I as [I _]. eauto.
Qed.
Lemma lookup_alt_in : forall w alts t, lookup_alt w alts = Some t -> In (w, t) alts.
Proof.
  intros w alts t. induction alts as [|[x y] r IH]; cbn [lookup_alt]; intro H; [discriminate|].
  destruct (Nat.eqb_spec x w) as [->|NE]; [injection H as <-; now left|right; auto].
Qed.
Lemma go_decl_gen : forall E size, go_decl E (MessageGen U E size c m).
Proof.
  intros E size. split; cbn [MessageGen d_fields d_wrappers d_zero].
  - intros j g alts w h N T I HA.
    destruct (struct_fields_iface _ _ _ _ (nth_error_In _ _ N) T) as (o & TY).
    apply has_alt_lookup in HA as (t & Q). rewrite Q. f_equal.
    apply lookup_alt_in in Q. unfold oneof_type in TY. injection TY as TY. rewrite TY in Q.
    apply in_map_iff in Q as ([j' f] & E1 & I1). injection E1 as <- <-.
    apply oneof_fields_in in I1 as [I1 _].
    destruct (wrapper_in _ _ I) as (f' & E2 & I2). injection E2 as ->.
    rewrite (enum_unique _ _ _ _ _ I1 I2). reflexivity.
  - intros w l l' A B. destruct (wrapper_in _ _ A) as (f & -> & I1). destruct (wrapper_in _ _ B) as (f' & -> & I2).
    rewrite (enum_unique _ _ _ _ _ I1 I2). reflexivity.
  - reflexivity.
Qed.

Lemma generated : forall E size, exists s, describe (MessageGen U E size c m) = POk s /\ wf_sdesc E s /\
  sd_unknown s = genUnknownFields c /\
  (forall d, In d (sd_fields s) -> exists i f, nth_error (pm_fields m) i = Some f /\ result (i, f) d) /\
  (forall i f, nth_error (pm_fields m) i = Some f -> exists d, In d (sd_fields s) /\ result (i, f) d).
Proof.
  intros E size. destruct (describe_gen E size) as (s & ps & D & P & R & UN).
  assert (A : forall d, In d (sd_fields s) -> exists i f, nth_error (pm_fields m) i = Some f /\ result (i, f) d).
  { intros d I. destruct (In_Forall2_r _ _ _ _ R I) as ([i f] & J & X). exists i, f. split; [|exact X].
    apply (Permutation_in _ P) in J. apply enum_nth in J as (k & -> & N). exact N. }
  exists s. split; [exact D|]. split; [|split; [exact UN|split; [exact A|]]].
  - apply (describe_wf E (MessageGen U E size c m) s (go_decl_gen E size) D); intros d I;
      destruct (A d I) as (i & f & N & sl & ->); cbn [fst snd];
      pose proof (lm_fields _ _ LM) as LF; rewrite Forall_forall in LF; specialize (LF f (nth_error_In _ _ N)).
    + apply supported_not_loose, gen_supported; [exact LF|]. destruct (pf_one f); cbn; congruence.
    + cbn [gen_desc f_id]. pose proof (lf_num _ _ LF). lia.
  - intros i f N.
    assert (J : In (i, f) ps). { apply (Permutation_in _ (Permutation_sym P)). apply enum_nth. exists i. auto. }
    clear - R J. induction R as [|p d ps l X R IH]; [destruct J|]. destruct J as [->|J].
    + exists d. split; [now left|exact X].
    + destruct (IH J) as (d' & I & Y). exists d'. split; [now right|exact Y].
Qed.
End Message.
