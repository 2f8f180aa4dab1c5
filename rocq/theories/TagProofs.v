(** parseStructTag and parseKVTag on the tags of generated code. *)
From Coq Require Import Strings.String Init.Byte Lia ZifyBool ZifyNat ZifyN.
From Verif Require Import Base Wire Coder MapTables Value Desc GoStr TagParse StrFacts TagSpec.
Import StringSyntax.
Open Scope N_scope.

(** A word after which parseStructTag goes on unchanged: the text of it, trimmed, is
    none of the words it knows and not a number. *)
Definition ignored (part : bytes) : Prop := forall p, tag_part p part = Some p.
Definition kv_ignored (part : bytes) : Prop := forall r, kv_parts (part :: r) = kv_parts r.

Lemma ne_by_eq : forall (s k : bytes), In x3d s -> ~ In x3d k -> str_eqb s k = false.
Proof. intros s k I N. apply str_eqb_ne. intro Q. subst. auto. Qed.

Ltac no_eq := vm_compute; intuition congruence.

Lemma encoding_word_eq : forall s, In x3d s -> encoding_word s = None.
Proof.
  intros s I. unfold encoding_word.
  repeat rewrite (ne_by_eq s) by (assumption || no_eq). reflexivity.
Qed.

(** word=text is ignored, whatever the text *)
Lemma assign_trim : forall a p x, plain_char a -> In x3d (TrimSpace (a :: p ++ x3d :: x)).
Proof.
  intros a p x A. destruct (TrimSpace_prefix a p x3d x A) as (y & ->); [vm_compute; auto|].
  right. apply in_or_app. right. now left.
Qed.
Lemma assign_ignored : forall a p x, plain_char a -> ignored (a :: p ++ x3d :: x).
Proof.
  intros a p x A q. pose proof (assign_trim a p x A) as I.
  unfold tag_part. set (s := TrimSpace (a :: p ++ x3d :: x)) in *.
  repeat rewrite (ne_by_eq s) by (assumption || no_eq).
  rewrite encoding_word_eq by assumption.
  rewrite (str_eqb_ne (Trim is_digit s) []); [reflexivity|].
  intro Q. apply (Trim_keep is_digit s x3d) in I; [|reflexivity]. rewrite Q in I. destruct I.
Qed.
Lemma assign_kv_ignored : forall a p x, plain_char a -> kv_ignored (a :: p ++ x3d :: x).
Proof.
  intros a p x A r. pose proof (assign_trim a p x A) as I.
  cbn [kv_parts]. set (s := TrimSpace (a :: p ++ x3d :: x)) in *.
  repeat rewrite (ne_by_eq s) by (assumption || no_eq).
  rewrite encoding_word_eq by assumption. reflexivity.
Qed.

Lemma tag_parts_app : forall l1 l2 p,
  tag_parts p (l1 ++ l2) = match tag_parts p l1 with Some q => tag_parts q l2 | None => None end.
Proof.
  induction l1 as [|s l1 IH]; intros l2 p; cbn [app tag_parts]; [reflexivity|].
  destruct (tag_part p s); [apply IH|reflexivity].
Qed.
Lemma tag_parts_ignored : forall l p, Forall ignored l -> tag_parts p l = Some p.
Proof.
  intros l p F. induction F as [|s l H F IH]; cbn [tag_parts]; [reflexivity|]. now rewrite H.
Qed.

Lemma tag_part_enc : forall p t, is_encoding t = true ->
  tag_part p (enc_word t) = Some (mkTag (p_id p) t (p_req p) (p_rep p) (p_packed p)).
Proof. intros p [] H; try discriminate; reflexivity. Qed.

Lemma digits_not_word : forall s w c, forallb is_digit s = true -> In c w -> is_digit c = false ->
  str_eqb s w = false.
Proof.
  intros s w c F I D. apply str_eqb_ne. intro Q. subst.
  rewrite forallb_forall in F. rewrite F in D by assumption. discriminate.
Qed.

Lemma tag_part_num : forall p n, n < 2^32 ->
  tag_part p (FormatUint n) = Some (mkTag (to_int32 n) (p_tag p) (p_req p) (p_rep p) (p_packed p)).
Proof.
  intros p n L. unfold tag_part. rewrite TrimSpace_plain by apply FormatUint_plain.
  rewrite (str_eqb_ne _ []) by apply FormatUint_ne.
  pose proof (FormatUint_digit n) as F. set (s := FormatUint n) in *.
  unfold encoding_word.
  rewrite (digits_not_word s (bs "opt") x6f) by (assumption || reflexivity || (vm_compute; auto)).
  rewrite (digits_not_word s (bs "req") x72) by (assumption || reflexivity || (vm_compute; auto)).
  rewrite (digits_not_word s (bs "rep") x72) by (assumption || reflexivity || (vm_compute; auto)).
  rewrite (digits_not_word s (bs "varint") x76) by (assumption || reflexivity || (vm_compute; auto)).
  rewrite (digits_not_word s (bs "zigzag32") x7a) by (assumption || reflexivity || (vm_compute; auto)).
  rewrite (digits_not_word s (bs "zigzag64") x7a) by (assumption || reflexivity || (vm_compute; auto)).
  rewrite (digits_not_word s (bs "fixed32") x66) by (assumption || reflexivity || (vm_compute; auto)).
  rewrite (digits_not_word s (bs "fixed64") x66) by (assumption || reflexivity || (vm_compute; auto)).
  rewrite (digits_not_word s (bs "bytes") x62) by (assumption || reflexivity || (vm_compute; auto)).
  rewrite (digits_not_word s (bs "group") x67) by (assumption || reflexivity || (vm_compute; auto)).
  rewrite (digits_not_word s (bs "packed") x70) by (assumption || reflexivity || (vm_compute; auto)).
  rewrite (Trim_all _ _ F). cbn [str_eqb]. subst s. now rewrite FormatUint_parse.
Qed.

Lemma digit_plain : forall s, forallb is_digit s = true -> Forall plain_char s.
Proof.
  intros s F. apply Forall_forall. intros c I. rewrite forallb_forall in F. specialize (F c I).
  unfold is_digit, plain_char in *. lia.
Qed.
Lemma tag_part_big : forall p s, s <> [] -> forallb is_digit s = true -> 2^32 <= dec_value 0 s ->
  tag_part p s = None.
Proof.
  intros p s NE F L. unfold tag_part. rewrite TrimSpace_plain by now apply digit_plain.
  rewrite (str_eqb_ne _ []) by assumption. unfold encoding_word.
  rewrite (digits_not_word s (bs "opt") x6f) by (assumption || reflexivity || (vm_compute; auto)).
  rewrite (digits_not_word s (bs "req") x72) by (assumption || reflexivity || (vm_compute; auto)).
  rewrite (digits_not_word s (bs "rep") x72) by (assumption || reflexivity || (vm_compute; auto)).
  rewrite (digits_not_word s (bs "varint") x76) by (assumption || reflexivity || (vm_compute; auto)).
  rewrite (digits_not_word s (bs "zigzag32") x7a) by (assumption || reflexivity || (vm_compute; auto)).
  rewrite (digits_not_word s (bs "zigzag64") x7a) by (assumption || reflexivity || (vm_compute; auto)).
  rewrite (digits_not_word s (bs "fixed32") x66) by (assumption || reflexivity || (vm_compute; auto)).
  rewrite (digits_not_word s (bs "fixed64") x66) by (assumption || reflexivity || (vm_compute; auto)).
  rewrite (digits_not_word s (bs "bytes") x62) by (assumption || reflexivity || (vm_compute; auto)).
  rewrite (digits_not_word s (bs "group") x67) by (assumption || reflexivity || (vm_compute; auto)).
  rewrite (digits_not_word s (bs "packed") x70) by (assumption || reflexivity || (vm_compute; auto)).
  rewrite (Trim_all _ _ F). cbn [str_eqb]. unfold ParseUint32. now replace (dec_value 0 s <? 2^32) with false by lia.
Qed.
Lemma tag_parts_big : forall l p s, In s l -> s <> [] -> forallb is_digit s = true -> 2^32 <= dec_value 0 s ->
  tag_parts p l = None.
Proof.
  induction l as [|x l IH]; intros p s I NE F L; [destruct I|]. cbn [tag_parts]. destruct I as [->|I].
  - now rewrite tag_part_big.
  - destruct (tag_part p x); [now apply (IH _ s)|reflexivity].
Qed.
Lemma big_number_refused : forall tag part, In part (Split x2c tag) -> part <> [] ->
  Forall (fun c => 48 <= b2n c <= 57) part -> 2^32 <= dec_value 0 part -> parseStructTag tag = None.
Proof.
  intros tag part I NE F L. unfold parseStructTag. rewrite (tag_parts_big _ _ part); try assumption; [reflexivity|].
  apply forallb_forall. intros c J. rewrite Forall_forall in F. specialize (F c J). unfold is_digit. lia.
Qed.

Lemma tag_part_group : forall p s, TrimSpace s = bs "group" -> tag_part p s = None.
Proof. intros p s H. unfold tag_part. rewrite H. reflexivity. Qed.
Lemma tag_parts_group : forall l p s, In s l -> TrimSpace s = bs "group" -> tag_parts p l = None.
Proof.
  induction l as [|x l IH]; intros p s I G; [destruct I|]. cbn [tag_parts]. destruct I as [->|I].
  - now rewrite tag_part_group.
  - destruct (tag_part p x); [now apply (IH _ s)|reflexivity].
Qed.
Lemma group_refused : forall tag part, In part (Split x2c tag) -> TrimSpace part = bs "group" -> parseStructTag tag = None.
Proof. intros tag part I G. unfold parseStructTag. now rewrite (tag_parts_group _ _ part). Qed.
Lemma kv_group_refused : forall tag a part b, Split x2c tag = a ++ part :: b ->
  Forall (fun s => encoding_word (TrimSpace s) = None) a -> TrimSpace part = bs "group" -> parseKVTag tag = None.
Proof.
  intros tag a part b Q F G. unfold parseKVTag. rewrite Q. clear Q. induction F as [|x a H F IH]; cbn [app kv_parts].
  - rewrite G. reflexivity.
  - destruct (str_eqb _ []); [exact IH|]. rewrite H. destruct (str_eqb _ (bs "group")); [reflexivity|exact IH].
Qed.

Lemma tag_part_label : forall p l, tag_part p (label_word l) =
  Some (mkTag (p_id p) (p_tag p) (match l with Req => true | _ => p_req p end)
              (match l with Rep => true | _ => p_rep p end) (p_packed p)).
Proof. intros [i t r rp pk] []; reflexivity. Qed.

Lemma tag_part_packed : forall p b, tag_parts p (flag_part (bs "packed") b) =
  Some (mkTag (p_id p) (p_tag p) (p_req p) (p_rep p) (b || p_packed p)).
Proof. intros [i t r rp pk] []; reflexivity. Qed.

(** The result of reading a tag whose parts after the label and packed are ignored. *)
Lemma parts_read : forall e n l pk rest, is_encoding e = true -> n < 2^31 -> Forall ignored rest ->
  tag_parts no_tag ([enc_word e; FormatUint n; label_word l] ++ flag_part (bs "packed") pk ++ rest) =
  Some (mkTag (Z.of_N n) e (match l with Req => true | _ => false end)
              (match l with Rep => true | _ => false end) pk).
Proof.
  intros e n l pk rest He Hn F. cbn [app tag_parts].
  rewrite tag_part_enc by assumption. rewrite tag_part_num by lia. rewrite tag_part_label.
  rewrite tag_parts_app, tag_part_packed, tag_parts_ignored by assumption.
  cbn [p_id p_tag p_req p_rep p_packed no_tag]. unfold to_int32.
  rewrite N.mod_small by lia. replace (n <? 2^31) with true by lia.
  rewrite orb_false_r. reflexivity.
Qed.

Lemma comma_free_enc : forall e, ~ In x2c (enc_word e).
Proof. intros []; no_eq. Qed.
Lemma comma_free_label : forall l, ~ In x2c (label_word l).
Proof. intros []; no_eq. Qed.
Lemma comma_free_num : forall n, ~ In x2c (FormatUint n).
Proof.
  intros n I. pose proof (FormatUint_digit n) as F. rewrite forallb_forall in F.
  apply F in I. vm_compute in I. discriminate.
Qed.
Lemma comma_free_app : forall w s, ~ In x2c w -> ~ In x2c s -> ~ In x2c (w ++ s).
Proof. intros w s W S I. apply in_app_or in I. tauto. Qed.

Lemma meaningless_ignored : forall s, meaningless s -> ignored s.
Proof.
  intros s [W D] p. unfold tag_part. set (t := TrimSpace s) in *.
  destruct (str_eqb_spec t []) as [N|N]; [reflexivity|].
  destruct (str_eqb_spec t (bs "opt")) as [O|O]; [reflexivity|].
  unfold encoding_word.
  repeat rewrite (str_eqb_ne t) by (intro Q; apply W; rewrite Q; unfold tag_words; repeat (first [left; reflexivity|right])).
  destruct D as [D|(c & I & D)]; [contradiction|].
  rewrite (str_eqb_ne (Trim is_digit t) []); [reflexivity|].
  intro Q. apply (Trim_keep is_digit t c) in I; [|assumption]. rewrite Q in I. destruct I.
Qed.

Definition tail_parts (a : attrs) : list bytes :=
  [bs "name=" ++ a_name a] ++
  opt_part (bs "json=") (a_json a) ++
  flag_part (bs "proto3") (a_proto3 a) ++
  opt_part (bs "enum=") (a_enum a) ++
  flag_part (bs "oneof") (a_oneof a).
Lemma tail_ignored : forall a, Forall ignored (tail_parts a).
Proof.
  intro a. unfold tail_parts.
  repeat (apply Forall_app; split).
  - constructor; [|constructor]. apply (assign_ignored x6e (bs "ame")). vm_compute; auto.
  - destruct (a_json a); constructor; [|constructor]. apply (assign_ignored x6a (bs "son")). vm_compute; auto.
  - destruct (a_proto3 a); constructor; [|constructor]. intro p. reflexivity.
  - destruct (a_enum a); constructor; [|constructor]. apply (assign_ignored x65 (bs "num")). vm_compute; auto.
  - destruct (a_oneof a); constructor; [|constructor]. intro p. reflexivity.
Qed.
Lemma tail_comma_free : forall a, no_comma (a_name a) -> opt_no_comma (a_json a) -> opt_no_comma (a_enum a) ->
  Forall (fun s => ~ In x2c s) (tail_parts a).
Proof.
  intros a H1 H2 H3. unfold tail_parts.
  repeat (apply Forall_app; split).
  - constructor; [|constructor]. apply comma_free_app; [no_eq|exact H1].
  - destruct (a_json a); constructor; [|constructor]. apply comma_free_app; [no_eq|exact H2].
  - destruct (a_proto3 a); constructor; [|constructor]. no_eq.
  - destruct (a_enum a); constructor; [|constructor]. apply comma_free_app; [no_eq|exact H3].
  - destruct (a_oneof a); constructor; [|constructor]. no_eq.
Qed.

Lemma Split_head : forall c w s, ~ In c w -> exists h, Split c (w ++ s) = (w ++ h) :: tl (Split c s).
Proof.
  intros c w s. induction w as [|x w IH]; intro H; cbn [app].
  - pose proof (Split_ne c s). destruct (Split c s) as [|h t]; [congruence|]. now exists h.
  - destruct IH as (h & Q); [intro; apply H; now right|]. cbn [Split]. rewrite Q.
    destruct (beqb_spec x c) as [E|E]; [subst; destruct H; now left|]. now exists h.
Qed.

Lemma tag_read : forall a, attrs_ok a -> Forall meaningless (def_rest a) ->
  parseStructTag (tag_text a) =
  Some (mkTag (Z.of_N (a_num a)) (a_enc a)
              (match a_label a with Req => true | _ => false end)
              (match a_label a with Rep => true | _ => false end) (a_packed a)).
Proof.
  intros a (He & Hn & N1 & N2 & N3) D.
  apply (Forall_impl _ meaningless_ignored) in D. unfold parseStructTag.
  set (hd := [enc_word (a_enc a); FormatUint (a_num a); label_word (a_label a)]).
  set (fl := flag_part (bs "packed") (a_packed a)).
  assert (C : Forall (fun s => ~ In x2c s) (hd ++ fl ++ tail_parts a)).
  { apply Forall_app; split; [|apply Forall_app; split].
    - repeat constructor; [apply comma_free_enc|apply comma_free_num|apply comma_free_label].
    - subst fl. destruct (a_packed a); constructor; [no_eq|constructor].
    - now apply tail_comma_free. }
  assert (T : exists rest, Split x2c (tag_text a) = hd ++ fl ++ rest /\ Forall ignored rest).
  { pose proof (tail_ignored a) as TI.
    replace (tag_text a) with (join x2c ((hd ++ fl ++ tail_parts a) ++ opt_part (bs "def=") (a_def a)))
      by (unfold tag_text, tail_parts; subst hd fl; now rewrite <- !app_assoc).
    unfold def_rest in D. destruct (a_def a) as [s|]; cbn [opt_part].
    - rewrite Split_join by assumption.
      destruct (Split_head x2c (bs "def=") s) as (h & ->); [no_eq|].
      exists (tail_parts a ++ (bs "def=" ++ h) :: tl (Split x2c s)). split; [now rewrite <- !app_assoc|].
      apply Forall_app. split; [assumption|]. constructor; [|assumption].
      apply (assign_ignored x64 (bs "ef")). vm_compute; auto.
    - rewrite app_nil_r. exists (tail_parts a). split; [|assumption].
      destruct (exists_last (l := hd ++ fl ++ tail_parts a)) as (l' & z & Q); [discriminate|].
      rewrite Q in *. apply Forall_app in C as [C1 C2].
      rewrite Split_join by assumption. rewrite Split_none by (inversion C2; assumption). reflexivity. }
  destruct T as (rest & -> & F).
  subst hd fl. rewrite parts_read by (assumption || lia). cbn [p_tag].
  destruct (a_enc a); try discriminate He; reflexivity.
Qed.
