(** Proofs about the Go text of a whole file: its declarations can be read, and its imports. *)
From Coq Require Import List Bool NArith ZArith Strings.String Init.Byte Lia Permutation.
From Verif Require Import Base Value GoStr StrFacts GenField GenSpec GenNames GenEnum GenGetter GenImport ImportSpec ImportProofs WriterSpec Comments
  GenText GoScan GoSyntax TextSpec GoScanProofs GoReadProofs GenTextProofs.
Import ListNotations StringSyntax.
Open Scope nat_scope.

(** ** The declarations can be read *)
Lemma word_is_name n : go_word n = true -> is_name n.
Proof. intro H. now apply go_word_inv in H as (c & r & _ & _ & _ & K). Qed.
Lemma scalar_ty_ok k : ty_ok (scalar_gty (scalar2GoTypes k)).
Proof. destruct k; reflexivity. Qed.
Lemma type_ty_ok t ti : type_ok t ti -> ty_ok (type_gty t ti).
Proof.
  intro H. destruct t as [s| |id]; [apply scalar_ty_ok| |]; destruct H as (N & P & _); cbn [type_gty]; destruct (ti_import ti); cbn [option_map ty_ok];
    repeat split; try (now apply word_is_name); destruct P; now apply word_is_name.
Qed.
Lemma field_ty_ok c f ti : type_ok (pf_ty f) ti -> ty_ok (field_gty c f ti).
Proof.
  intro H. pose proof (type_ty_ok _ _ H) as T. unfold field_gty.
  assert (E : ty_ok (elem_gty (pf_ty f) ti (genNoPointer c f))) by (unfold elem_gty; destruct (pf_ty f); try exact T; destruct (genNoPointer c f); exact T).
  destruct (pf_kt f) as [k|]; [split; [apply scalar_ty_ok|exact E]|]. destruct (pf_rep f); [exact E|]. destruct (pf_is_pointer c f); exact T.
Qed.
Lemma stmt_balanced x s : match s with SReturn e => balanced (w "return" :: go_tokens e) | _ => True end -> balanced (stmt_toks x s).
Proof. destruct s as [f|f|get i f|e]; intro H; [bal|bal|bal|exact H]. Qed.
Lemma enum_decls_ok e : enum_ok e -> Forall decl_ok (enum_decls (et_enum e)).
Proof.
  intro OK. pose proof (word_is_name _ (eo_name e OK)) as N. unfold enum_decls. cbv zeta. set (n := enum_GoName (et_enum e)) in *.
  constructor; [repeat split; [exact N|discriminate]|]. apply Forall_app. split.
  - pose proof (eo_values e OK) as V. destruct (en_values (et_enum e)) as [|f l]; [constructor|]. constructor; [|constructor]. cbn [decl_ok].
    apply Forall_forall. intros y I. apply in_map_iff in I as (f' & <- & I). cbn [fst snd]. rewrite Forall_forall in V. destruct (V f' I) as [W _]. split; [now apply word_is_name|exact N].
  - destruct (genMapping (et_enum e)); [|constructor].
    assert (KN : forall s, is_name (n ++ x5f :: s)) by (intro s; apply no_underscore_keyword).
    repeat constructor; try apply (KN (bs "name")); try apply (KN (bs "value")).
    + apply Forall_forall. intros y I. apply in_map_iff in I as (v & <- & _). cbn. now split.
    + apply Forall_forall. intros y I. apply in_map_iff in I as (v & <- & _). cbn. now split.
    + set (nn := n ++ bs "_name"). clearbody nn. bal.
Qed.
Section Message.
Variable x : minfo.
Hypothesis OK : info_ok x.
Lemma field_decl_ok i f : nth_error (pm_fields (mi_msg x)) i = Some f -> is_name (fst (fst (field_decl x i f))) /\ ty_ok (snd (fst (field_decl x i f))).
Proof.
  intro H. cbn [field_decl fst snd]. split; [apply word_is_name; now apply (go_name_word x OK i f)|]. apply field_ty_ok. now destruct (io_fields x OK i f H) as (_ & _ & T & _).
Qed.
Lemma oneof_word f k i : nth_error (pm_fields (mi_msg x)) i = Some f -> pf_one f = Some k -> go_word (oneof_name x k) = true /\ go_word (oneof_type_name x k) = true.
Proof.
  intros H P. destruct (io_oneofs x OK f k (nth_error_In _ _ H) P) as [KL W]. split; [exact W|]. apply oneof_type_word; [exact OK|]. now apply io_oneof_types.
Qed.
Lemma field_decls_ok : forall l i seen, (forall j f, nth_error l j = Some f -> nth_error (pm_fields (mi_msg x)) (i + j) = Some f) ->
  Forall (fun f => is_name (fst (fst f)) /\ ty_ok (snd (fst f))) (field_decls x seen i l).
Proof.
  induction l as [|f l IH]; intros i seen H; [constructor|].
  assert (H0 : nth_error (pm_fields (mi_msg x)) i = Some f) by (specialize (H 0 f eq_refl); now rewrite Nat.add_0_r in H).
  assert (HS : forall j g, nth_error l j = Some g -> nth_error (pm_fields (mi_msg x)) (S i + j) = Some g).
  { intros j g N. replace (S i + j) with (i + S j) by lia. now apply H. }
  cbn [field_decls]. destruct (pf_one f) as [k|] eqn:P.
  - destruct (existsb (Nat.eqb k) seen); [now apply IH|]. constructor; [|now apply IH]. cbn [fst snd name ty_ok].
    destruct (oneof_word f k i H0 P). split; now apply word_is_name.
  - constructor; [now apply field_decl_ok|now apply IH].
Qed.
Lemma getter_decls_ok : forall l i seen names, (forall j f, nth_error l j = Some f -> nth_error (pm_fields (mi_msg x)) (i + j) = Some f) ->
  Forall decl_ok (map (getter_decl x) (combine (getters (mi_ctx x) (mi_msg x) (mi_ti x) (mi_names x) seen i l names) (getter_types x seen i l))).
Proof.
  induction l as [|f l IH]; intros i seen names H; [constructor|]. destruct names as [|n names]; [constructor|].
  assert (H0 : nth_error (pm_fields (mi_msg x)) i = Some f) by (specialize (H 0 f eq_refl); now rewrite Nat.add_0_r in H).
  assert (HS : forall j g, nth_error l j = Some g -> nth_error (pm_fields (mi_msg x)) (S i + j) = Some g).
  { intros j g N. replace (S i + j) with (i + S j) by lia. now apply H. }
  destruct (io_fields x OK i f H0) as (_ & _ & TO & _). pose proof (field_ty_ok (mi_ctx x) f _ TO) as FT.
  destruct (zero_reads (mi_ctx x) f (mi_ti x i) TO) as [_ ZB].
  assert (D : forall m b t, balanced b -> ty_ok t -> decl_ok (YFunc [w "x"; o "*"; TWord (mi_go x)] (Getter m) [] (ResOne t) b)).
  { intros m b t B T. cbn [decl_ok]. split; [reflexivity|]. split; [repeat constructor|]. split; [constructor|]. now split. }
  assert (BB : forall s e, match s with SReturn _ => False | _ => True end -> balanced (w "return" :: go_tokens e) -> balanced (concat (map (stmt_toks x) [s; SReturn e]))).
  { intros s e S B. cbn [map concat]. rewrite app_nil_r. apply balanced_app; apply stmt_balanced; [now destruct s|exact B]. }
  cbn [getters getter_types]. cbv zeta. destruct (pf_one f) as [k|] eqn:P.
  - destruct (oneof_word f k i H0 P) as [W1 W2].
    assert (D2 : decl_ok (getter_decl x (member_getter (mi_ctx x) f (mi_ti x i) (rf_go n) i (oneof_GoName (mi_names x) k), field_gty (mi_ctx x) f (mi_ti x i)))).
    { apply D; [now apply BB|exact FT]. }
    destruct (existsb (Nat.eqb k) seen); cbn [app combine map].
    + constructor; [exact D2|]. now apply IH.
    + constructor; [|constructor; [exact D2|now apply IH]]. apply D; [|now apply word_is_name]. apply BB; [exact Logic.I|].
      match goal with |- balanced ?t => let v := eval vm_compute in t in change t with v end. bal.
  - cbn [combine map]. constructor; [|now apply IH]. unfold getter_decl. cbn [fst snd].
    assert (T' : ty_ok (if pf_is_msg f then field_gty (mi_ctx x) f (mi_ti x i) else match field_gty (mi_ctx x) f (mi_ti x i) with YPtr t' => t' | _ => field_gty (mi_ctx x) f (mi_ti x i) end)).
    { destruct (pf_is_msg f); [exact FT|]. destruct (field_gty (mi_ctx x) f (mi_ti x i)); exact FT. }
    unfold field_getter. destruct (if pf_is_msg f then None else strip_star (GoTypeName (mi_ctx x) f)); cbn [me_name me_body]; (apply D; [now apply BB|exact T']).
Qed.
Lemma own_decls_ok g : Forall decl_ok (own_decls g x).
Proof.
  pose proof (word_is_name _ (io_name x OK)) as N. unfold own_decls. cbv zeta. set (n := mi_go x) in *.
  constructor; [|constructor].
  - cbn [decl_ok]. split; [exact N|]. apply Forall_app. split; [exact (field_decls_ok _ 0 [] (fun j f H => H))|].
    destruct (genUnknownFields (mi_ctx x)); repeat constructor.
  - cbn [decl_ok]. split; [reflexivity|]. split; [repeat constructor|]. split; [constructor|]. split; [bal|exact Logic.I].
  - apply Forall_app. split; [|apply Forall_app; split; [|apply Forall_app; split]].
    + destruct (g_kitex g); [|constructor]. constructor; [|constructor; [|constructor]]; cbn [decl_ok];
        (split; [reflexivity|]; split; [repeat constructor|]; split; [repeat constructor|]; split; [bal|]).
      * split; [discriminate|repeat constructor].
      * reflexivity.
    + destruct (g_getter g); [|constructor]. exact (getter_decls_ok _ 0 [] (mi_names x) (fun j f H => H)).
    + destruct (pm_oneofs (mi_msg x)); [constructor|]. constructor; [|constructor]. cbn [decl_ok].
      split; [reflexivity|]. split; [repeat constructor|]. split; [constructor|]. split; [|exact Logic.I].
      set (MT := concat (map (fun k => concat _) _)).
      assert (BM : balanced MT).
      { unfold MT. generalize (seq 0 (length (b :: l))). intro q. induction q as [|k q IH]; [apply balanced_nil|]. cbn [map concat]. apply balanced_app; [|exact IH].
        generalize (members x k). intro q'. induction q' as [|p q' IH']; [apply balanced_nil|]. cbn [map concat]. apply balanced_app; [bal|exact IH']. }
      clearbody MT. change (closes 0 ([w "return"; o "["; o "]"; w "interface"; o "{"; o "}"; o "{"] ++ MT ++ [o "}"])). cbn [app].
      do 4 (apply closes_tok; [reflexivity|reflexivity|]). refine (closes_open _ _ _). refine (closes_close _ _ _). refine (closes_open _ _ _). apply closes_app; [exact BM|]. apply closes_close, closes_nil.
    + apply Forall_concat. apply Forall_map. apply Forall_forall. intros k K. apply in_seq in K. pose proof (oneof_type_word x OK k (io_oneof_types x OK k ltac:(lia))) as W2.
      apply word_is_name in W2. unfold oneof_decls.
      constructor; [now split|]. apply Forall_concat. apply Forall_map. apply Forall_forall. intros [j f'] I. apply (member_nth x) in I as [NE _]. cbn [fst snd].
      destruct (io_fields x OK j f' NE) as (_ & _ & _ & WW). constructor; [|constructor; [|constructor]]; cbn [decl_ok].
      * split; [now apply word_is_name|]. constructor; [now apply field_decl_ok|constructor].
      * split; [exact W2|]. split; [repeat constructor|]. split; [constructor|]. split; [apply balanced_nil|exact Logic.I].
Qed.
End Message.
Lemma message_decls_ok g : forall m, message_ok m -> Forall decl_ok (message_decls g m).
Proof.
  fix IH 1. intros [x ms] H. inversion H as [x' ms' HX HM E1]; subst. cbn [message_decls]. apply Forall_app. split; [now apply own_decls_ok|].
  clear H HX. induction ms as [|m ms IHl]; [constructor|]. inversion HM as [|m' ms' A B]; subst. cbn [map concat]. apply Forall_app. split; [now apply IH|now apply IHl].
Qed.
Lemma file_decls_ok g enums msgs : Forall enum_ok enums -> Forall (fun m => Forall enum_ok (fst m) /\ message_ok (snd m)) msgs -> Forall decl_ok (file_decls g enums msgs).
Proof.
  intros HE HM. unfold file_decls.
  assert (R : forall l, Forall enum_ok l -> Forall decl_ok (concat (map (fun e => enum_decls (et_enum e)) l))).
  { intros l H. apply Forall_concat, Forall_map. eapply Forall_impl; [|exact H]. intro. apply enum_decls_ok. }
  apply Forall_app. split; [now apply R|]. apply Forall_app. split; apply Forall_concat, Forall_map; (eapply Forall_impl; [|exact HM]); intros m [A B]; [now apply R|now apply message_decls_ok].
Qed.
