(** Property C81: what is loaded from the bytes of a .proto file. *)
From Coq Require Import List ZArith Bool Arith Lia.
From Coq Require Import String.
From Verif Require Import Base GoStr GenField Verify StrLit Listen ListenSpec Props_Listen.
From Verif Require Import Atn LexSpec LexFileSpec LexFile Props_Lex.
From Verif Require Import ParserNames Parser ParserSpec ParserProofs ParserFull ParserPredict Props_Parser Props_Ident.
From Verif Require Import Walk SpellSpec WalkDefs WalkFile.
Import ListNotations.
Import StringSyntax.
Local Open Scope string_scope.
Local Open Scope list_scope.

(** ** From the tree *)
(** The walk of a tree does not panic, and calls the listener as the walk of a file
    that the tokens spell. *)
Theorem C81_walk : forall w x, file_tree w x -> lexed w -> exists f, file_is f w /\ events r_proto x = Some (walk_file f).
Proof. exact file_of. Qed.
Print Assumptions C81_walk.
(** The sentences of the grammar are the files that can be spelled. *)
Theorem C81_sentences : forall w, lexed w -> (sentence w <-> exists f, file_is f w).
Proof.
  intros w L. split.
  - intros [x D]. destruct (file_of w x D L) as (f & F & _). eauto.
  - intros [f F]. now apply (spelled_sentence f).
Qed.
Print Assumptions C81_sentences.

(** ** From the bytes *)
(** [w]: the tokens the parser reads, with their places.  [loaded_as f r]: [r] is what the
    file [f] means; a file that means nothing ends the run with an error, not with a panic. *)
Definition loaded_as (f : sfile) (r : lres) : Prop :=
  match r with
  | LOk st => exists t, file_means f t /\ shows_file st t
  | LFatal => forall t, ~ file_means f t
  | LPanic => False
  end.
Lemma load_walk x f : events r_proto x = Some (walk_file f) -> load_tree x = load f.
Proof. intros E. unfold load_tree. now rewrite E. Qed.
#[local] Opaque lex_file parse load_tree events parser_tokens.
(** Whatever the bytes and whatever the predictions, what is loaded is what the tokens spell. *)
Theorem C81_any : forall o data, exists items, lex_file data = Some items /\
  forall r, load_file o data = Some r -> exists f, file_is f (parser_tokens 0 items) /\ loaded_as f r.
Proof.
  intros o data. destruct (file_tokens data) as (items & El & EL & Lx & WT & IO). exists items. split; [exact El|].
  intros r. unfold load_file, parse_file. rewrite El. destruct (parse o (parser_tokens 0 items)) as [f rest| |] eqn:Ep; [|intros H; discriminate H|intros H; discriminate H].
  destruct (parse_all _ _ _ _ EL Ep) as (_ & x & -> & Dx). destruct (file_of _ _ Dx Lx) as (f & F & Ev).
  intros H. assert (Er : load_tree x = r) by (injection H as H; exact H). subst r. exists f. split; [exact F|]. rewrite (load_walk _ _ Ev). exact (C72_mirror f (spelled_parsed _ _ F IO WT)).
Qed.
Print Assumptions C81_any.
Theorem C81_no_panic : forall o data, load_file o data <> Some LPanic.
Proof. intros o data E. destruct (C81_any o data) as (items & _ & H). destruct (H _ E) as (f & _ & []). Qed.
Print Assumptions C81_no_panic.
(** With right predictions, the parser finds an error only if the tokens spell nothing. *)
Theorem C81_error : forall o data, right o -> exists items, lex_file data = Some items /\
  (load_file o data = None <-> forall f, ~ file_is f (parser_tokens 0 items)).
Proof.
  intros o data R. destruct (file_tokens data) as (items & El & EL & Lx & WT & IO). exists items. split; [exact El|].
  unfold load_file, parse_file. rewrite El. destruct (parse o (parser_tokens 0 items)) as [f rest| |] eqn:Ep.
  - destruct (parse_all _ _ _ _ EL Ep) as (_ & x & -> & Dx). destruct (file_of _ _ Dx Lx) as (f & F & _).
    split; [discriminate|]. intros H. destruct (H f F).
  - split; [|reflexivity]. intros _ f F. apply spelled_sentence in F. apply (C79_accepts o _ R EL) in F as [x F]. congruence.
  - now apply C79_ends in Ep.
Qed.
Print Assumptions C81_error.
(** All right predictions load the same. *)
Theorem C81_same : forall o o' data, right o -> right o' -> load_file o data = load_file o' data.
Proof.
  intros o o' data R R'. destruct (file_tokens data) as (items & El & EL & _). unfold load_file, parse_file. rewrite El.
  now rewrite (C79_same o o' _ R R' EL).
Qed.
Print Assumptions C81_same.
(** For a file without lexical errors, these are the tokens of the text. *)
Theorem C81_file : forall o data s l, right o -> decoded data s -> tokenized s l ->
  match load_file o data with
  | None => forall f, ~ file_is f (placed 0 l)
  | Some r => exists f, file_is f (placed 0 l) /\ loaded_as f r
  end.
Proof.
  intros o data s l R D Tk. destruct (C81_error o data R) as (items & El & E). destruct (C81_any o data) as (items' & El' & A).
  rewrite El in El'. injection El' as <-. rewrite (C75_tokens _ _ _ D Tk) in El. injection El as <-.
  destruct (placed_tokens l 0 (tokenized_not_eof _ _ Tk)) as [Ep _]. rewrite Ep in *.
  destruct (load_file o data) as [r|]; [exact (A r eq_refl)|]. now apply E.
Qed.
Print Assumptions C81_file.

(** *** Examples *)
Definition small_text := "syntax='proto3';message M{bool a=1;}service S{rpc R(M)returns(stream M);}".
Definition small_file := bs small_text.
Definition small : sfile :=
  mkSFile (Some (bs "'proto3'"))
    [StMsg (bs "M") [SmField None (fld (bs "bool") (bs "a") (bs "1") [])];
     StService (bs "S") [SsRpc (mkSRpc (bs "R") None (bs "M", 52%nat) (Some 62%nat) (bs "M", 69%nat) [])]].
Definition loaded_quick (data : bytes) : option lres :=
  match quick data with
  | Some l => match parse predict (parser_tokens 0 l) with OK (x :: _) _ => Some (load_tree x) | _ => None end
  | None => None
  end.
Lemma loaded_quick_ok data : loaded_quick data = load_file predict data.
Proof.
  unfold loaded_quick, load_file, parse_file. rewrite lex_file_quick. destruct (quick data); reflexivity.
Qed.
(** The file above is read, and what is loaded is what [small] means. *)
Example C81_ex_loads : load_file predict small_file = Some (load small).
Proof. rewrite <- loaded_quick_ok. vm_compute. reflexivity. Qed.
Example C81_ex_ok : exists st, load small = LOk st.
Proof. eexists. vm_compute. reflexivity. Qed.
(** A file that is a sentence and means nothing; one that is not a sentence. *)
Example C81_ex_fatal : load_file predict (bs "package a;package b;") = Some LFatal /\ load_file predict (bs "message M") = None.
Proof. split; rewrite <- loaded_quick_ok; vm_compute; reflexivity. Qed.
