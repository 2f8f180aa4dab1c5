(** Property C80: which words can be names in a .proto file. *)
From Coq Require Import List ZArith Bool Arith Lia.
From Coq Require Import String.
From Verif Require Import Base GoStr Atn LexSpec LexFileSpec LexFile LexLayout LexFileProofs Props_Lex.
From Verif Require Import ParserNames Parser ParserSpec ParserProofs ParserFull ParserPredict Props_Parser IdentProofs.
Import ListNotations.
Import StringSyntax.
Local Open Scope string_scope.
Local Open Scope list_scope.
Open Scope Z_scope.

(** The language says: a letter, then letters, digits and underscores ([is_word]).
    In a file that the parser accepts, an identifier can be replaced by any other such
    word, keywords among them, but for three. *)
Definition usable (n : LexSpec.text) : Prop :=
  is_word n /\ n <> str "required" /\ n <> str "inf" /\ n <> str "nan".
Lemma renames_refl w : Forall2 renames w w.
Proof. induction w; constructor; auto. now left. Qed.
Theorem C80_tokens_partial : forall n, usable n -> exists k, first_kind k n /\
  forall i w1 x w2, t_kind x = IDENTIFIER -> sentence (w1 ++ x :: w2) -> sentence (w1 ++ mkTok k i n :: w2).
Proof.
  intros n (W & N1 & N2 & N3). destruct (word_has_kind n W) as [k F]. exists k. split; [exact F|].
  intros i w1 x w2 Kx S. eapply rename_sentence; [exact S|]. apply Forall2_app.
  - apply renames_refl.
  - constructor; [|apply renames_refl]. right. split; [exact Kx|]. cbn [t_kind].
    destruct F as [(r & I & M) _]. destruct (word_kind _ _ _ W I M) as [A|[[_ A]|[_ [A|A]]]]; auto; contradiction.
Qed.
Print Assumptions C80_tokens_partial.

(** The same for texts. *)
Lemma placed_kinds l : forall i, map t_kind (placed i l) = map fst (visible l) ++ [EOF].
Proof.
  induction l as [|[k x] l IH]; intros i; [reflexivity|]. unfold visible. cbn [placed filter fst].
  rewrite map_app, IH. destruct (channel_of k =? 0); reflexivity.
Qed.
Lemma same_kinds w : forall w', map t_kind w = map t_kind w' -> Forall2 renames w w'.
Proof.
  induction w as [|x w IH]; intros [|y w'] E; try discriminate; [constructor|].
  injection E as E1 E2. constructor; [left; auto|auto].
Qed.
Lemma file_sentence o data s l : right o -> decoded data s -> written l s ->
  ((exists x, parse_file o data = OK [x] []) <-> sentence (map (fun k => mkTok k 0 []) (map fst l ++ [EOF]))).
Proof.
  intros R D W. destruct (written_tok l s W (decoded_text _ _ D)) as (l' & Tk & <-).
  destruct (parse_file_tokens o _ _ _ D Tk) as [E EL]. rewrite E. rewrite (C79_accepts o _ R EL).
  assert (K : map t_kind (placed 0 l') = map t_kind (map (fun k => mkTok k 0 []) (map fst (visible l') ++ [EOF]))).
  { rewrite placed_kinds, map_map. now rewrite map_id. }
  split; intros S; eapply rename_sentence; try exact S; apply same_kinds; auto.
Qed.
Theorem C80_names_partial : forall o data data' s s' l1 l2 m k n, right o -> usable n ->
  decoded data s -> written (l1 ++ (IDENTIFIER, m) :: l2) s ->
  decoded data' s' -> written (l1 ++ (k, n) :: l2) s' ->
  (exists x, parse_file o data = OK [x] []) -> exists x, parse_file o data' = OK [x] [].
Proof.
  intros o data data' s s' l1 l2 m k n R U D W D' W' A.
  apply (file_sentence o _ _ _ R D W) in A. apply (file_sentence o _ _ _ R D' W').
  assert (F : first_kind k n).
  { clear - W'. remember (l1 ++ (k, n) :: l2) as l eqn:E. revert l1 E.
    induction W' as [| |s k0 t0 l rest L C F Ap W IH]; intros l1 E; try (destruct l1; discriminate).
    destruct l1 as [|p l1]; [now injection E as <- <- _|]. injection E as _ E. eauto. }
  destruct (C80_tokens_partial n U) as (k' & F' & H).
  assert (k' = k).
  { destruct F as [A1 B1], F' as [A2 B2]. destruct (Z.lt_trichotomy k k') as [L|[L|L]]; auto.
    - exfalso. now apply (B2 k L). - exfalso. now apply (B1 k' L). }
  subst k'. rewrite !map_app in A |- *. cbn [map fst app] in A |- *. rewrite <- app_assoc in A |- *. cbn [app] in A |- *.
  specialize (H O _ (mkTok IDENTIFIER 0 []) _ eq_refl A).
  eapply rename_sentence; [exact H|]. apply same_kinds. now rewrite !map_app.
Qed.
Print Assumptions C80_names_partial.

(** The three words are rejected: a field cannot be called "required", although it can
    be called "optional". *)
Lemma accepts_not w : eof_last w -> parse predict w = Err -> forall o, parse o w = Err.
Proof.
  intros EL E o. apply C79_error; [exact EL|]. intros S.
  apply (C79_accepts predict w C79_prediction EL) in S. destruct S as [x S]. congruence.
Qed.
Definition last_only (w : list tok) : bool := forallb (fun x => negb (t_kind x =? EOF)) (removelast w).
Lemma last_only_ok w : last_only w = true -> eof_last w.
Proof.
  unfold last_only. intros H a x b -> Ex. destruct b as [|y b]; [reflexivity|]. exfalso.
  rewrite removelast_app in H by discriminate. rewrite forallb_app in H. apply andb_true_iff in H as [_ H].
  cbn [removelast forallb] in H. rewrite Ex in H. discriminate.
Qed.
#[local] Opaque lex_file.
Lemma parse_file_quick o data l : quick data = Some l -> parse_file o data = parse o (parser_tokens 0 l).
Proof. intros E. unfold parse_file. now rewrite lex_file_quick, E. Qed.
Definition optional_file := bs "message M{bool optional=1;}".
Definition required_file := bs "message M{bool required=1;}".
Definition inf_file := bs "enum E{inf=0;}".
Definition kinds_of (data : bytes) : option (list Z) := option_map (fun l => map t_kind (parser_tokens 0 l)) (quick data).
Lemma kinds_accepts data ks : kinds_of data = Some ks -> last_only (map (fun k => mkTok k 0 []) ks) = true ->
  match parse predict (map (fun k => mkTok k 0 []) ks) with
  | OK _ _ => exists x, parse_file predict data = OK [x] []
  | Err => forall o, parse_file o data = Err
  | NoFuel => False
  end.
Proof.
  unfold kinds_of. intros K L. destruct (quick data) as [l|] eqn:Q; [|discriminate]. cbn in K. injection K as K.
  set (w := map (fun k => mkTok k 0 []) ks) in *.
  assert (EL : eof_last w) by now apply last_only_ok.
  assert (Ks : map t_kind w = map t_kind (parser_tokens 0 l)).
  { rewrite K. unfold w. rewrite map_map. now rewrite map_id. }
  assert (EL' : eof_last (parser_tokens 0 l)).
  { apply last_only_ok. apply last_only_ok in L. clear - EL Ks. revert Ks. generalize (parser_tokens 0 l) as w'.
    induction w as [|x w IH]; intros [|y w'] E; try discriminate; [reflexivity|].
    injection E as E1 E2. assert (EL2 : eof_last w) by now apply (eof_last_app [x]).
    specialize (IH EL2 _ E2). unfold last_only in *. destruct w' as [|z w']; [reflexivity|].
    change (removelast (y :: z :: w')) with (y :: removelast (z :: w')). cbn [forallb]. rewrite IH, andb_true_r.
    rewrite <- E1. destruct w as [|z' w]; [discriminate|]. destruct (t_kind x =? EOF) eqn:Ex; [|reflexivity].
    apply Z.eqb_eq in Ex. specialize (EL [] x _ eq_refl Ex). discriminate. }
  destruct (parse predict w) as [f rest| |] eqn:E.
  - destruct (parse_all _ _ _ _ EL E) as (_ & x & _ & D). rewrite (parse_file_quick _ _ _ Q).
    apply (C79_accepts predict _ C79_prediction EL'). eapply rename_sentence; [exists x; exact D|]. now apply same_kinds.
  - intros o. rewrite (parse_file_quick _ _ _ Q). apply C79_error; [exact EL'|]. intros S.
    assert (S' : sentence w) by (eapply rename_sentence; [exact S|]; now apply same_kinds).
    apply (C79_accepts predict w C79_prediction EL) in S'. destruct S' as [x S']. congruence.
  - now apply C79_ends in E.
Qed.
Theorem C80_refuted :
  (exists x, parse_file predict optional_file = OK [x] []) /\
  (forall o, parse_file o required_file = Err) /\
  (forall o, parse_file o inf_file = Err).
Proof.
  split; [|split].
  - refine (kinds_accepts optional_file [33; 58; 45; 23; 8; 40; 57; 39; 46; -1] _ eq_refl); vm_compute; reflexivity.
  - refine (kinds_accepts required_file [33; 58; 45; 23; 9; 40; 57; 39; 46; -1] _ eq_refl); vm_compute; reflexivity.
  - refine (kinds_accepts inf_file [32; 58; 45; 56; 40; 57; 39; 46; -1] _ eq_refl); vm_compute; reflexivity.
Qed.
Print Assumptions C80_refuted.

(** *** Examples *)
(** "message", "to" and "x_1" are usable. *)
Example C80_ex_usable : usable (str "message") /\ usable (str "to") /\ usable (str "x_1") /\ usable (str "required_").
Proof.
  assert (U : forall c l, in_ranges letter_ranges c = true -> forallb is_word_char l = true ->
    c :: l <> str "required" -> c :: l <> str "inf" -> c :: l <> str "nan" -> usable (c :: l)).
  { intros c l A B C D E. split; [|auto]. exists c, l. split; [reflexivity|]. split; [exact A|].
    apply Forall_forall. rewrite forallb_forall in B. exact B. }
  repeat split; try discriminate; (eexists; eexists; split; [reflexivity|]; split; [reflexivity|]; repeat constructor).
Qed.
