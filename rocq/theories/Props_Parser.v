(** Property C79: the parser accepts exactly the sentences of the grammar, with a tree
    that derives them. *)
From Coq Require Import List ZArith Bool Arith Lia.
From Coq Require Import String.
From Verif Require Import Base GoStr Atn LexSpec LexFileSpec LexFile Props_Lex.
From Verif Require Import ParserNames Parser ParserSpec ParserProofs ParserFull ParserPredict.
Import ListNotations.
Import StringSyntax.
Local Open Scope string_scope.
Local Open Scope list_scope.
Open Scope Z_scope.

(** ** Whatever the predictions are, the parser ends, *)
Theorem C79_ends : forall o w, parse o w <> NoFuel.
Proof. exact parse_ends. Qed.
Print Assumptions C79_ends.
(** an accepted file is a sentence and its tree derives it, *)
Theorem C79_tree : forall o w f rest, parse o w = OK f rest ->
  exists v x, w = v ++ rest /\ f = [x] /\ file_tree v x.
Proof. exact parse_sound. Qed.
Print Assumptions C79_tree.
(** the leaves of such a tree are the tokens, in their order, *)
Fixpoint leaves (x : tree) : list tok :=
  match x with
  | Leaf t => [t]
  | Node _ l => flat_map leaves l
  end.
Lemma derives_leaves l w f : derives l w f -> flat_map leaves f = w.
Proof.
  induction 1; cbn [flat_map leaves]; auto.
  - cbn. now rewrite IHderives.
  - now rewrite IHderives1, IHderives2.
Qed.
Theorem C79_leaves : forall w x, file_tree w x -> leaves x = w.
Proof.
  intros w x D. apply derives_leaves in D. cbn in D. now rewrite app_nil_r in D.
Qed.
Print Assumptions C79_leaves.
(** and a file that is not a sentence is an error. *)
Lemma tree_eof w x : file_tree w x -> exists u e, w = u ++ [e] /\ t_kind e = EOF.
Proof.
  unfold file_tree. intros D. inversion D as [| |? ? w1 f1 w2 f2 D1 D2| | | | | |]; subst.
  inversion D2; subst. rewrite app_nil_r.
  destruct (derives_split _ _ _ D1 (removelast (rule r_proto)) [t EOF] eq_refl)
    as (u & v & ? & ? & -> & _ & _ & D3).
  inversion D3 as [|ks l y w' f' K D4| | | | | | |]; subst. inversion D4; subst. destruct K as [K|[]].
  exists u, y. auto.
Qed.
Lemma parse_all o w f rest : eof_last w -> parse o w = OK f rest -> rest = [] /\ exists x, f = [x] /\ file_tree w x.
Proof.
  intros EL E. destruct (C79_tree _ _ _ _ E) as (v & x & -> & -> & D).
  destruct (tree_eof _ _ D) as (u & e & -> & Ke). rewrite <- app_assoc in EL.
  specialize (EL u e rest eq_refl Ke). subst rest. rewrite app_nil_r. eauto.
Qed.
Theorem C79_error : forall o w, eof_last w -> ~ sentence w -> parse o w = Err.
Proof.
  intros o w EL NS. destruct (parse o w) as [f rest| |] eqn:E; [|reflexivity|now apply C79_ends in E].
  exfalso. destruct (parse_all _ _ _ _ EL E) as (_ & x & _ & D). apply NS. now exists x.
Qed.
Print Assumptions C79_error.

(** ** If the predictions are right, every sentence is accepted. *)
Theorem C79_accepts : forall o w, right o -> eof_last w ->
  ((exists x, parse o w = OK [x] []) <-> sentence w).
Proof.
  intros o w R EL. split.
  - intros (x & E). destruct (parse_all _ _ _ _ EL E) as (_ & y & _ & D). now exists y.
  - intros S. destruct (parse_complete o o (right_right _ R) (right_right _ R) w EL S) as (x & E & _). eauto.
Qed.
Print Assumptions C79_accepts.
(** The tree is the same for all right predictions. *)
Theorem C79_same : forall o o' w, right o -> right o' -> eof_last w -> parse o w = parse o' w.
Proof.
  assert (A : forall o o' w f rest, right o -> right o' -> eof_last w -> parse o w = OK f rest -> parse o' w = OK f rest).
  { intros o o' w f rest R R' EL E. destruct (parse_all _ _ _ _ EL E) as (_ & x & _ & D).
    destruct (parse_complete o o' (right_right _ R) (right_right _ R') w EL (ex_intro _ x D)) as (y & E1 & E2). congruence. }
  intros o o' w R R' EL. destruct (parse o w) as [f rest| |] eqn:E.
  - symmetry. eapply A; eauto.
  - destruct (parse o' w) as [f rest| |] eqn:E'; [|reflexivity|now apply C79_ends in E'].
    rewrite (A _ _ _ _ _ R' R EL E') in E. discriminate.
  - now apply C79_ends in E.
Qed.
Print Assumptions C79_same.

(** ** The prediction with full context is right. *)
Theorem C79_prediction : right predict.
Proof. exact predict_right. Qed.
Print Assumptions C79_prediction.
(** So is any prediction that first tries something else and takes its answer
    where no other alternative is viable. *)
Definition no_other (alts : list (list sym)) (w : list tok) (m : nat) : Prop :=
  forall i l, nth_error alts i = Some l -> viable l w -> i = m.
Definition two_stages (first : oracle) : oracle := fun d alts w =>
  match first d alts w with Some m => Some m | None => predict d alts w end.
Theorem C79_two_stages : forall first,
  (forall d alts w m, first d alts w = Some m -> no_other alts w m) -> right (two_stages first).
Proof.
  intros first S d alts w EL H. unfold two_stages. destruct (first d alts w) as [m|] eqn:E; [|now apply predict_right].
  specialize (S _ _ _ _ E). destruct H as (l & I & V). destruct (In_nth_error _ _ I) as [i Ei].
  pose proof (S _ _ Ei V). subst i. exists m, l. repeat split; auto.
  intros i l' L Ei' V'. specialize (S _ _ Ei' V'). lia.
Qed.
Print Assumptions C79_two_stages.

(** ** From the bytes of a file *)
(** The tokens the parser reads, with their places in the text *)
Fixpoint placed (start : nat) (l : list (Z * LexSpec.text)) : list tok :=
  match l with
  | [] => [mkTok EOF start []]
  | (k, x) :: l' => (if channel_of k =? 0 then [mkTok k start x] else []) ++ placed (start + List.length x) l'
  end.
Lemma placed_tokens l : forall start, Forall (fun p => fst p <> EOF) l -> 
  parser_tokens start (token_items l) = placed start l /\ eof_last (placed start l).
Proof.
  unfold token_items. induction l as [|[k x] l IH]; intros start F.
  - split; [reflexivity|]. intros a y b E _. cbn in E. destruct a as [|? [|? ?]]; cbn in E; congruence.
  - apply Forall_cons_iff in F as [Fk F]. cbn in Fk. cbn [map app fst snd parser_tokens placed].
    destruct (IH (start + List.length x)%nat F) as [A B]. rewrite A. split; [reflexivity|].
    destruct (channel_of k =? 0); [|exact B]. intros a y b E Ey. destruct a as [|z a]; cbn in E.
    + injection E as <- <-. cbn in Ey. congruence.
    + injection E as _ E. now apply (B a y b).
Qed.
Lemma kinds_not_eof : Forall (fun p => fst p <> EOF) kinds.
Proof. repeat constructor; discriminate. Qed.
Lemma tokenized_not_eof s l : tokenized s l -> Forall (fun p => fst p <> EOF) l.
Proof.
  intros Tk. apply tokenized_first in Tk. eapply Forall_impl; [|exact Tk]. intros [k x] [(r & I & _) _].
  pose proof kinds_not_eof as K. rewrite Forall_forall in K. exact (K _ I).
Qed.
#[local] Opaque lex_file.
Lemma parse_file_tokens o data s l : decoded data s -> tokenized s l ->
  parse_file o data = parse o (placed 0 l) /\ eof_last (placed 0 l).
Proof.
  intros D Tk. unfold parse_file. rewrite (C75_tokens _ _ _ D Tk).
  destruct (placed_tokens l 0 (tokenized_not_eof _ _ Tk)) as [A B]. rewrite A. auto.
Qed.
Theorem C79_file : forall o data s l, decoded data s -> tokenized s l -> right o ->
  (forall x, parse_file o data = OK [x] [] -> file_tree (placed 0 l) x) /\
  (sentence (placed 0 l) -> exists x, parse_file o data = OK [x] []) /\
  (~ sentence (placed 0 l) -> parse_file o data = Err).
Proof.
  intros o data s l D Tk R. destruct (parse_file_tokens o _ _ _ D Tk) as [E EL]. rewrite E. split; [|split].
  - intros x Ex. destruct (parse_all _ _ _ _ EL Ex) as (_ & y & [= <-] & Dx). exact Dx.
  - apply C79_accepts; auto.
  - apply C79_error; auto.
Qed.
Print Assumptions C79_file.

(** *** Examples *)
(** message M { optional E e = 1; enum E { A = 0; } option foo = 1; } : the nested enum
    after the field is an alternative of its own, and "option foo = 1;" is the field foo
    of type "option", as a field is the first alternative. *)
Definition ex_kinds : list Z :=
  [33; 58; 45; 8; 58; 58; 40; 57; 39; 32; 58; 45; 58; 40; 57; 39; 46; 7; 58; 40; 57; 39; 46; -1].
Definition ex_tokens : list tok := map (fun k => mkTok k 0 []) ex_kinds.
(** the rules at the children of a node *)
Definition rules_below (x : tree) : list nat :=
  match x with
  | Leaf _ => []
  | Node _ l => flat_map (fun y => match y with Node r _ => [r] | Leaf _ => [] end) l
  end.
Fixpoint find_rule (r : nat) (x : tree) : list tree :=
  match x with
  | Leaf _ => []
  | Node q l => if Nat.eqb q r then [x] else flat_map (find_rule r) l
  end.
Example C79_ex_accepts : eof_last ex_tokens /\ sentence ex_tokens /\
  exists x, parse predict ex_tokens = OK [x] [] /\
    map rules_below (find_rule r_messageElement x) = [[r_field]; [r_enumDef]; [r_field]].
Proof.
  assert (EL : eof_last ex_tokens).
  { intros a x b E Ex. change ex_tokens with (map (fun k => mkTok k 0 []) (removelast ex_kinds) ++ [mkTok EOF 0 []]) in E.
    destruct b as [|y b]; [reflexivity|]. exfalso. destruct (exists_last (l := y :: b) ltac:(discriminate)) as (c & z & Ec).
    rewrite Ec in E. rewrite app_comm_cons, app_assoc in E. apply app_inj_tail in E as [E _].
    assert (I : In x (map (fun k => mkTok k 0 []) (removelast ex_kinds))) by (rewrite E; apply in_app_iff; right; left; reflexivity).
    apply in_map_iff in I. destruct I as (k & <- & I). cbn [t_kind] in Ex. subst k. cbn in I.
    repeat (destruct I as [I|I]; [discriminate|]). exact I. }
  split; [exact EL|].
  assert (P : exists x, parse predict ex_tokens = OK [x] [] /\
    map rules_below (find_rule r_messageElement x) = [[r_field]; [r_enumDef]; [r_field]]).
  { eexists. split; [vm_compute; reflexivity|]. vm_compute. reflexivity. }
  split; [|exact P]. destruct P as (x & P & _). apply (C79_accepts predict _ C79_prediction EL). now exists x.
Qed.
(** Without its last brace it is an error. *)
Example C79_ex_error : parse predict (map (fun k => mkTok k 0 []) (firstn 22 ex_kinds ++ [-1])) = Err.
Proof. vm_compute. reflexivity. Qed.
(** A first stage that answers only when one alternative can begin with the next token *)
Example C79_ex_stages : right (two_stages (fun _ _ _ => None)).
Proof. apply C79_two_stages. discriminate. Qed.
