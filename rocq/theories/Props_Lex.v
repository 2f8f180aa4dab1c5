(** Properties C75, C76, C77 and C69 (string tokens): from the bytes of a .proto
    file to the tokens of the parser. *)
From Coq Require Import List ZArith NArith Bool Lia Init.Byte.
From Coq Require Import String.
From Verif Require Import Base GoStr StrLit StrLitSpec AtnTable Atn.
From Verif Require Import LexSpec LexFileSpec LexFile.
From Verif Require Import LexDfa LexProofs LexLayout LexFileProofs.
Import ListNotations.
Import StringSyntax.
Local Open Scope string_scope.
Local Open Scope list_scope.
Open Scope Z_scope.

(** What the lexer puts out for the tokens [l]: each with its channel, and the
    end of the file. *)
Definition token_items (l : list (Z * LexSpec.text)) : list item :=
  map (fun p => ITok (fst p) (channel_of (fst p)) (snd p)) l ++ [eof_token].
Definition no_error (l : list item) : Prop := forall t, ~ In (IErr t) l.

Lemma no_error_existsb l : existsb is_error l = false <-> no_error l.
Proof.
  unfold no_error. induction l as [|[k c t|t] l IH]; cbn.
  - firstorder.
  - rewrite IH. split; intros H u; [intros [E|E]; [discriminate|eapply H; eauto]|].
    intros E. apply (H u). auto.
  - split; [discriminate|]. intros H. exfalso. apply (H t). auto.
Qed.
Lemma no_error_items l : no_error (token_items l).
Proof.
  intros t Hin. apply in_app_or in Hin as [Hin|[Hin|[]]]; [|discriminate].
  apply in_map_iff in Hin as (p & E & _). discriminate.
Qed.
Lemma is_error_app a b : existsb is_error (a ++ b) = existsb is_error a || existsb is_error b.
Proof. apply existsb_app. Qed.

(* ---------- texts ---------- *)
#[local] Opaque lex.
Lemma lex_total s : is_text s -> exists items, lex s = Some (items ++ [eof_token])
  /\ List.concat (map item_text items) = s
  /\ (no_error items <-> exists l, tokenized s l).
Proof.
  intros Ht. destruct (lex_spec s Ht) as (items & E & C & A & B).
  exists items. rewrite lex_lexer. split; auto. split; auto.
  rewrite <- no_error_existsb. split.
  - intros H. destruct (A H) as (l & _ & T). eauto.
  - intros (l & T). destruct (existsb is_error items) eqn:F; auto. exfalso. eapply B; eauto.
Qed.
Lemma lex_tokens s l : is_text s -> tokenized s l -> lex s = Some (token_items l).
Proof.
  intros Ht T. destruct (lex_spec s Ht) as (items & E & C & A & B). rewrite lex_lexer, E.
  destruct (existsb is_error items) eqn:F; [exfalso; eapply B; eauto|].
  destruct (A eq_refl) as (l' & -> & T'). rewrite (tokenized_unique _ _ T _ T'). reflexivity.
Qed.
Lemma lex_only s items : is_text s -> lex s = Some items -> no_error items ->
  exists l, tokenized s l /\ items = token_items l.
Proof.
  intros Ht E N. destruct (lex_spec s Ht) as (it & E' & C & A & B).
  rewrite lex_lexer, E' in E. injection E as <-.
  apply no_error_existsb in N. rewrite is_error_app in N. apply orb_false_elim in N as [N _].
  destruct (A N) as (l & -> & T). exists l. split; auto.
Qed.

Lemma lex_file_text data s : decoded data s -> lex_file data = lex s.
Proof.
  intros D. unfold lex_file. now rewrite (decoded_unique _ _ D _ (ReadRunes_decoded data)).
Qed.

(** C75. Every file is cut into tokens, or the lexer reports an error; nothing
    of the file is lost: *)
Theorem C75_total : forall data s, decoded data s ->
  exists items, lex_file data = Some (items ++ [eof_token])
    /\ List.concat (map item_text items) = s
    /\ (no_error items <-> exists l, tokenized s l).
Proof.
  intros data s D. rewrite (lex_file_text _ _ D).
  apply lex_total. eapply decoded_text; eauto.
Qed.
Print Assumptions C75_total.

(** the tokens are those of the grammar, the longest match first: *)
Theorem C75_tokens : forall data s l, decoded data s -> tokenized s l ->
  lex_file data = Some (token_items l).
Proof.
  intros data s l D T. rewrite (lex_file_text _ _ D).
  apply lex_tokens; auto. eapply decoded_text; eauto.
Qed.
Print Assumptions C75_tokens.
Theorem C75_only : forall data s items, decoded data s -> lex_file data = Some items ->
  no_error items -> exists l, tokenized s l /\ items = token_items l.
Proof.
  intros data s items D E N. rewrite (lex_file_text _ _ D) in E.
  exact (lex_only s items (decoded_text _ _ D) E N).
Qed.
Print Assumptions C75_only.

(** and there is one way to read a file and one way to cut it. *)
Theorem C75_unique :
  (forall data, exists s, decoded data s) /\
  (forall data s s', decoded data s -> decoded data s' -> s = s') /\
  (forall s l l', tokenized s l -> tokenized s l' -> l = l').
Proof.
  split; [|split].
  - intros data. exists (ReadRunes data). apply ReadRunes_decoded.
  - intros data s s' A B. eapply decoded_unique; eauto.
  - intros s l l' A B. eapply tokenized_unique; eauto.
Qed.
Print Assumptions C75_unique.

(** Comments and words, in plain terms. *)
Ltac kind_re H :=
  vm_compute in H; repeat destruct H as [H|H]; try discriminate; try (destruct H; fail);
  injection H as <-.
Theorem C75_plain : forall t,
  (of_kind 61 t <-> is_block_comment t) /\ (of_kind 60 t <-> is_line_comment t) /\
  (of_kind 58 t <-> is_word t).
Proof.
  intros t. unfold of_kind. split; [|split].
  - rewrite <- block_comment_iff. split.
    + intros (r & Hin & M). kind_re Hin. exact M.
    + intros M. exists block_comment. split; auto. do 60 (right; cbn [tl]). left. reflexivity.
  - rewrite <- line_comment_iff. split.
    + intros (r & Hin & M). kind_re Hin. exact M.
    + intros M. exists line_comment. split; auto. do 59 (right; cbn [tl]). left. reflexivity.
  - rewrite <- identifier_iff. split.
    + intros (r & Hin & M). kind_re Hin. exact M.
    + intros M. exists identifier. split; auto. do 57 (right; cbn [tl]). left. reflexivity.
Qed.
Print Assumptions C75_plain.

(** C69. The string tokens are the literals [lexed] of StrLit.v, and every such
    literal is a string token: *)
Theorem C69_token : forall data s l t, decoded data s -> tokenized s l -> In (54, t) l ->
  exists q body, quote q /\ GetText t = q :: body ++ [q] /\ lexed q body.
Proof.
  intros data s l t D T Hin. pose proof (decoded_scalar _ _ D) as Sc. clear D.
  induction T as [|k t0 rest l Hf T IH]; [destruct Hin|]. apply Forall_app in Sc as [S1 S2].
  destruct Hin as [E|Hin]; [|auto]. injection E as -> ->.
  destruct Hf as (_ & [(r & Hin & M) _] & _). kind_re Hin.
  change (matches string_lit t) in M.
  apply or_iff in M as [M|M].
  - destruct (quoted_lexed squote x27 t) as (b & E & L); auto; [now right|].
    exists x27, b. split; [now right|auto].
  - destruct (quoted_lexed dquote x22 t) as (b & E & L); auto; [now left|].
    exists x22, b. split; [now left|auto].
Qed.
Print Assumptions C69_token.

Lemma string_first t : matches string_lit t -> first_kind 54 t.
Proof.
  intros M. split.
  - exists string_lit. split; auto. do 53 (right; cbn [tl]). left. reflexivity.
  - intros k' L H.
    assert (Q : exists q x, t = q :: x /\ (q = squote \/ q = dquote)).
    { apply or_iff in M as [M|M]; apply seq_inv in M as (x & y & -> & M1 & _);
        apply chr_inv in M1; subst x; cbn; eauto. }
    destruct Q as (q & x & -> & [-> | ->]).
    + assert (k' = 54); [|lia]. refine (begins_kind [squote] x 54 k' _ H).
      vm_compute. intros p [<-|[]]. reflexivity.
    + assert (k' = 54); [|lia]. refine (begins_kind [dquote] x 54 k' _ H).
      vm_compute. intros p [<-|[]]. reflexivity.
Qed.
Theorem C69_is_token : forall q body rest t' l, quote q -> lexed q body ->
  decoded rest t' -> tokenized t' l ->
  exists t, GetText t = q :: body ++ [q] /\
    lex_file ((q :: body ++ [q]) ++ rest) = Some (token_items ((54, t) :: l)).
Proof.
  intros q body rest t' l Q L D T.
  assert (P : exists z, quote_pair z q /\ (forall t, matches (quoted z) t -> matches string_lit t)).
  { destruct Q as [-> | ->].
    - exists dquote. split; [now left|]. intros t M. now apply m_right.
    - exists squote. split; [now right|]. intros t M. now apply m_left. }
  destruct P as (z & P & S). destruct (lexed_quoted z q body P L) as (t & M & G & Dq).
  exists t. split; [exact G|]. apply (C75_tokens _ (t ++ t') ((54, t) :: l)); [now apply Dq|].
  constructor; auto. apply apart_front.
  - eapply decoded_text. apply Dq. exact D.
  - apply string_first. auto.
  - destruct t'; reflexivity || exact I.
Qed.
Print Assumptions C69_is_token.

(** C76. The claim "a file that cannot be cut into tokens is refused" is false:
    whatever the parser does, the two files below have the same result, and only
    one of them can be cut into tokens; the other has a dollar sign before a
    field name. *)
(* the same tokens, found with the derivatives of the grammar: to compute examples *)
Definition quick (data : bytes) : option (list item) :=
  let s := ReadRunes data in vtokens (S (Datatypes.length s)) s false.
Lemma lex_quick data : lex (ReadRunes data) = quick data.
Proof. rewrite lex_lexer. apply lex_vtokens. eapply decoded_text, ReadRunes_decoded. Qed.
Lemma lex_file_quick data : lex_file data = quick data.
Proof. apply lex_quick. Qed.

Definition good_file := bs "message M{int32 x=1;}".
Definition bad_file := bs "message M{int32 $x=1;}".
Theorem C76_refuted : exists data data' s s',
  decoded data s /\ decoded data' s' /\
  (exists l, tokenized s l) /\ (forall l, ~ tokenized s' l) /\
  forall (T : Type) (parse : list (Z * Z * list Z) -> T * nat),
    exists r e e', parseInput parse data = Some (r, e) /\ parseInput parse data' = Some (r, e').
Proof.
  exists good_file, bad_file, (ReadRunes good_file), (ReadRunes bad_file).
  split; [apply ReadRunes_decoded|]. split; [apply ReadRunes_decoded|].
  assert (G : exists items, lex (ReadRunes good_file) = Some items /\ existsb is_error items = false
    /\ exists items', lex (ReadRunes bad_file) = Some items' /\ existsb is_error items' = true
    /\ stream items = stream items').
  { rewrite !lex_quick.
    eexists. split; [vm_compute; reflexivity|]. split; [vm_compute; reflexivity|].
    eexists. split; [vm_compute; reflexivity|]. split; vm_compute; reflexivity. }
  destruct G as (items & E & N & items' & E' & N' & S).
  assert (Ht : is_text (ReadRunes good_file)) by (eapply decoded_text, ReadRunes_decoded).
  assert (Ht' : is_text (ReadRunes bad_file)) by (eapply decoded_text, ReadRunes_decoded).
  split; [|split].
  - apply no_error_existsb in N. destruct (lex_only _ _ Ht E N) as (l & T & _). eauto.
  - intros l T. rewrite (lex_tokens _ _ Ht' T) in E'. injection E' as <-.
    pose proof (no_error_items l) as F. apply no_error_existsb in F. congruence.
  - intros T parse. unfold parseInput, lex_file. rewrite E, E', <- S.
    destruct (parse (stream items)) as [r n]. eauto.
Qed.
Print Assumptions C76_refuted.

(** What remains: such a file is told on stderr, and only such a file; what is
    told are the characters that are left out.  The run goes on with what the parser made
    of the tokens if and only if the parser found no error. *)
Theorem C76_told_partial : forall (T : Type) (parse : list (Z * Z * list Z) -> T * nat) data s,
  decoded data s ->
  exists items r e, lex_file data = Some items /\ parseInput parse data = Some (r, e) /\
    (forall x, r = Some x <-> parse (stream items) = (x, 0%nat)) /\
    (forall t, In t e <-> In (IErr t) items) /\
    (e = [] <-> exists l, tokenized s l).
Proof.
  intros T parse data s D. destruct (C75_total data s D) as (items & E & _ & N).
  destruct (parse (stream (items ++ [eof_token]))) as [r n] eqn:P.
  exists (items ++ [eof_token]), (match n with O => Some r | S _ => None end),
    (flat_map (fun i => match i with IErr t => [t] | _ => [] end) (items ++ [eof_token])).
  split; [exact E|]. split; [unfold parseInput; rewrite E, P; reflexivity|]. clear E. split; [|split].
  { intros x. rewrite P. destruct n; split; intros H; try discriminate; congruence. }
  { intros t. rewrite in_flat_map. split.
    - intros ([k c u|u] & I & H); cbn [In] in H; [destruct H|]. destruct H as [->|[]]. exact I.
    - intros I. exists (IErr t). cbn. auto. }
  rewrite <- N.
  rewrite flat_map_app. cbn. rewrite app_nil_r. clear. unfold no_error.
  induction items as [|[k c t|t] l IH]; cbn.
  - split; auto.
  - rewrite IH. split; intros H u; [intros [E|E]; [discriminate|eapply H; eauto]|].
    intros E. apply (H u). auto.
  - split; [discriminate|]. intros H. exfalso. apply (H t). auto.
Qed.
Print Assumptions C76_told_partial.
(** Without an error, every character of the file belongs to a token. *)
Theorem C76_all_partial : forall data s items, decoded data s -> lex_file data = Some items ->
  no_error items -> List.concat (map snd (stream items)) = s.
Proof.
  intros data s items D E N. destruct (C75_only _ _ _ D E N) as (l & T & ->).
  rewrite (tokenized_concat _ _ T). unfold token_items, stream. rewrite flat_map_app, map_app, concat_app.
  cbn. rewrite app_nil_r. clear. induction l as [|[k t] l IH]; cbn; auto. now rewrite IH.
Qed.
Print Assumptions C76_all_partial.

(** C77. Layout does not matter: whatever layout stands before, between and
    after the tokens, the parser reads these tokens. *)
Definition seen (s : LexSpec.text) : option (list (Z * LexSpec.text)) :=
  option_map parser_input (lex s).
Lemma seen_visible l : parser_input (token_items l) = visible l ++ [(-1, [])].
Proof.
  unfold token_items, parser_input, visible. rewrite flat_map_app. f_equal.
  induction l as [|[k t] l IH]; cbn [map flat_map filter fst snd]; auto.
  rewrite IH. destruct (channel_of k =? 0); reflexivity.
Qed.
Lemma seen_tokens s l : is_text s -> tokenized s l -> seen s = Some (visible l ++ [(-1, [])]).
Proof.
  intros Ht T. unfold seen. rewrite (lex_tokens _ _ Ht T). cbn [option_map].
  now rewrite seen_visible.
Qed.

Theorem C77_layout : forall l s, is_text s -> written l s -> seen s = Some (l ++ [(-1, [])]).
Proof.
  intros l s Ht W. destruct (written_tok l s W Ht) as (l' & T & <-). now apply seen_tokens.
Qed.
Print Assumptions C77_layout.

(** Two ways to write the same tokens are the same to the parser. *)
Corollary C77_same : forall l s s', is_text s -> is_text s' -> written l s -> written l s' ->
  seen s = seen s'.
Proof. intros. rewrite (C77_layout l s), (C77_layout l s'); auto. Qed.
Print Assumptions C77_same.

(** Layout may be put at the end of any token but a "//" comment. *)
Theorem C77_insert : forall l1 l2 a b sep, layout sep ->
  tokenized (a ++ b) (l1 ++ l2) -> a = List.concat (map snd l1) -> last_kind l1 <> 60 ->
  is_text (a ++ sep ++ b) -> seen (a ++ sep ++ b) = seen (a ++ b).
Proof.
  intros l1 l2 a b sep L T Ea Hl Ht.
  destruct (insert_tok sep b l2 L l1 a Ea Hl Ht T) as (l' & T' & E).
  rewrite (seen_tokens _ _ Ht T'), (seen_tokens (a ++ b) (l1 ++ l2)); [now rewrite E| |exact T].
  apply Forall_app in Ht as [H1 H2]. apply Forall_app in H2 as [_ H2]. now apply Forall_app.
Qed.
Print Assumptions C77_insert.

(** Every file that can be cut into tokens is read like the one in which single
    blanks stand between its tokens. *)
Definition blanks (l : list (Z * LexSpec.text)) : LexSpec.text :=
  flat_map (fun p => snd p ++ [32]) l.
Lemma blanks_written l : Forall (fun p => channel_of (fst p) = 0 /\ first_kind (fst p) (snd p)) l ->
  forall sep, layout sep -> written l (sep ++ blanks l).
Proof.
  induction 1 as [|[k t] l [Hk F] _ IH]; intros sep L; cbn [blanks flat_map fst snd] in *.
  - rewrite app_nil_r. now constructor.
  - fold (blanks l). rewrite <- app_assoc. constructor; auto.
    + cbn. destruct (channels k) as [K|[->|[->| ->]]]; try discriminate.
      unfold glues. unfold channel_of in Hk.
      destruct (k =? 59); [discriminate|]. destruct (k =? 60); [discriminate|].
      destruct (k =? 49); [reflexivity|]. destruct ((39 <=? k) && (k <=? 54) || (k =? 61)); reflexivity.
    + apply (IH [32]). constructor; [reflexivity|constructor].
Qed.
Lemma tokenized_first s l : tokenized s l -> Forall (fun p => first_kind (fst p) (snd p)) l.
Proof. induction 1 as [|k t rest l (_ & F & _) T IH]; constructor; auto. Qed.
Theorem C77_blanks : forall s l, is_text s -> tokenized s l -> seen s = seen (blanks (visible l)).
Proof.
  intros s l Ht T.
  assert (W : written (visible l) ([] ++ blanks (visible l))).
  { apply blanks_written; [|constructor]. pose proof (tokenized_first _ _ T) as F.
    rewrite Forall_forall in *. intros p Hp. apply filter_In in Hp as [Hp E].
    apply Z.eqb_eq in E. auto. }
  assert (Hb : is_text (blanks (visible l))).
  2:{ rewrite (C77_layout _ _ Hb W). now apply seen_tokens. }
  assert (Hc : Forall (fun p => is_text (snd p)) l).
  { clear W. induction T as [|k t rest l Hf T IH]; constructor.
    - apply Forall_app in Ht. tauto.
    - apply IH. apply Forall_app in Ht. tauto. }
  clear - Hc. unfold blanks, visible. induction Hc as [|p l H Hc IH]; [constructor|].
  cbn [filter]. destruct (channel_of (fst p) =? 0); auto. cbn [flat_map].
  apply Forall_app. split; auto. apply Forall_app. split; auto.
  repeat constructor; discriminate.
Qed.
Print Assumptions C77_blanks.

(* ---------- examples ---------- *)

(** Tokens of a small file: keyword, blank, word that begins with a keyword,
    symbols, a number, and a comment. *)
Example C75_ex_tokens :
  option_map (map (fun i => match i with ITok k c t => (k, c) | IErr _ => (0, 0) end))
    (lex_file (bs "message messages{int32 x=0x1F;}//end"))
  = Some [(33, 0); (59, 2); (58, 0); (45, 0); (13, 0); (59, 2); (58, 0); (40, 0); (57, 0);
          (39, 0); (46, 0); (60, 3); (-1, 0)].
Proof. rewrite lex_file_quick. vm_compute. reflexivity. Qed.

(** It can be cut into tokens. *)
Example C75_ex_tokenized : exists l, tokenized (ReadRunes good_file) l /\ Datatypes.length l = 11%nat.
Proof.
  assert (G : exists items, lex (ReadRunes good_file) = Some items /\ existsb is_error items = false
    /\ Datatypes.length items = 12%nat).
  { rewrite lex_quick.
    eexists. split; [vm_compute; reflexivity|]. split; vm_compute; reflexivity. }
  destruct G as (items & E & N & Ln). apply no_error_existsb in N.
  destruct (lex_only _ _ (decoded_text _ _ (ReadRunes_decoded good_file)) E N) as (l & T & ->).
  exists l. split; auto. unfold token_items in Ln. rewrite app_length, map_length in Ln. cbn in Ln.
  rewrite Nat.add_1_r in Ln. injection Ln as Ln. exact Ln.
Qed.
(** A byte that is not UTF-8 is read as U+FFFD and reported outside a comment. *)
Example C75_ex_bad_byte : ReadRunes [x61; xff; x62] = [97; 65533; 98] /\
  lex_file [x61; xff; x62] = Some [ITok 58 0 [97]; IErr [65533]; ITok 58 0 [98]; eof_token].
Proof. split; [vm_compute; reflexivity|]. rewrite lex_file_quick. vm_compute. reflexivity. Qed.
(** A comment ends at the first "*/". *)
Example C75_ex_comment :
  option_map (map (fun i => match i with ITok k c t => k | IErr _ => 0 end))
    (lex_file (bs "/* a **/b/**/"))
  = Some [61; 58; 61; -1].
Proof. rewrite lex_file_quick. vm_compute. reflexivity. Qed.
(** What is printed and dropped. *)
Example C76_ex_dropped : lex_file (bs "x $y") = Some
  [ITok 58 0 [120]; ITok 59 2 [32]; IErr [36]; ITok 58 0 [121]; eof_token].
Proof. rewrite lex_file_quick. vm_compute. reflexivity. Qed.

(** Two ways to write a field. *)
Lemma kind_check k t : vaccept (dvecs kinds t) = Some k -> first_kind k t.
Proof.
  intros E. destruct (vaccept_some (dvecs kinds t) 0 k) as [A B]; auto.
  - generalize kinds_asc. generalize kinds. unfold dvecs. clear.
    induction t as [|c t IH]; cbn; intros v Hv; auto. apply IH. now apply asc_dvec.
  - split; [apply of_kind_vmatches; rewrite <- (app_nil_r t); now apply dvecs_ok|].
    intros k' L H. apply (B k' L). apply dvecs_ok. rewrite app_nil_r. exact H.
Qed.
Definition field_tokens : list (Z * LexSpec.text) :=
  [(13, str "int32"); (58, str "x"); (40, str "="); (57, str "1"); (39, str ";")].
Example C77_ex_written :
  written field_tokens (str "int32 x=1;") /\
  written field_tokens (str "/* a */ int32/**/x = 1 ; // b").
Proof.
  split.
  - apply (w_token [] 13 (str "int32") _ (str " x=1;")); [constructor|reflexivity| |reflexivity|].
    { apply kind_check. vm_compute. reflexivity. }
    apply (w_token (str " ") 58 (str "x") _ (str "=1;")); [repeat constructor|reflexivity| |reflexivity|].
    { apply kind_check. vm_compute. reflexivity. }
    apply (w_token [] 40 (str "=") _ (str "1;")); [constructor|reflexivity| |reflexivity|].
    { apply kind_check. vm_compute. reflexivity. }
    apply (w_token [] 57 (str "1") _ (str ";")); [constructor|reflexivity| |reflexivity|].
    { apply kind_check. vm_compute. reflexivity. }
    apply (w_token [] 39 (str ";") _ []); [constructor|reflexivity| |exact I|].
    { apply kind_check. vm_compute. reflexivity. }
    repeat constructor.
  - assert (B : forall x, clean false (str x ++ [star]) = true ->
      Forall is_char (str x) -> matches block_comment (str "/*" ++ str x ++ str "*/")).
    { intros x C F. apply block_comment_iff. exists (str x). split; [reflexivity|]. split; auto.
      now apply clean_without. }
    apply (w_token (str "/* a */ ") 13 (str "int32") _ (str "/**/x = 1 ; // b")); [|reflexivity| |reflexivity|].
    { apply (lay_block (str "/* a */") (str " ")); [|repeat constructor].
      apply (B " a "); [reflexivity|]. repeat constructor; discriminate. }
    { apply kind_check. vm_compute. reflexivity. }
    apply (w_token (str "/**/") 58 (str "x") _ (str " = 1 ; // b")); [|reflexivity| |reflexivity|].
    { apply (lay_block (str "/**/") []); [|repeat constructor]. apply (B ""); [reflexivity|constructor]. }
    { apply kind_check. vm_compute. reflexivity. }
    apply (w_token (str " ") 40 (str "=") _ (str " 1 ; // b")); [repeat constructor|reflexivity| |reflexivity|].
    { apply kind_check. vm_compute. reflexivity. }
    apply (w_token (str " ") 57 (str "1") _ (str " ; // b")); [repeat constructor|reflexivity| |reflexivity|].
    { apply kind_check. vm_compute. reflexivity. }
    apply (w_token (str " ") 39 (str ";") _ (str " // b")); [repeat constructor|reflexivity| |reflexivity|].
    { apply kind_check. vm_compute. reflexivity. }
    apply (w_end_line (str " ") (str "// b")); [repeat constructor|].
    apply line_comment_iff. exists (str " b"). split; [reflexivity|].
    split; [repeat constructor; discriminate|]. split; vm_compute; intuition discriminate.
Qed.
(** Layout that is not closed at the end of a line would join a "//" comment:
    the condition of C77_insert is needed. *)
Example C77_ex_line : seen (str "//a" ++ str "/*" ++ [newline] ++ str "*/" ++ str "; b")
  <> seen (str "//a" ++ str "; b").
Proof.
  unfold seen. rewrite !lex_lexer, !lex_vtokens.
  - vm_compute. discriminate.
  - repeat constructor; discriminate.
  - repeat constructor; discriminate.
Qed.
