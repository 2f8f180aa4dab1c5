(** Properties C79 and C81 for AdaptivePredict with its two stages: the first (SLL) stage
    does not change what is accepted, the tree, or what is loaded. *)
From Coq Require Import List ZArith Bool Arith Lia.
From Coq Require Import String.
From Verif Require Import Base GoStr Atn LexSpec LexFileSpec LexFile Props_Lex.
From Verif Require Import ParserNames Parser ParserSpec ParserProofs Sll ParserFull ParserPredict SllProofs Props_Parser.
From Verif Require Import LoadSpec Load Props_Load Walk SpellSpec WalkFile Props_Walk.
Import ListNotations.
Import StringSyntax.
Local Open Scope string_scope.
Local Open Scope list_scope.
Open Scope Z_scope.

(** [conflict]: when the first stage hands over to the second; [recover]: what is answered
    where no alternative is viable; [wait]: when the second stage reads on although it
    could answer.  None of them matters. *)

(** ** Each answer of AdaptivePredict to the parser is the first alternative with which
    the rest of the file can be read, if there is one. *)
Theorem C79_adaptive : forall conflict recover wait d alts w, called d alts -> eof_last w ->
  right_prediction alts w (adaptive conflict recover wait d alts w).
Proof. intros. now apply adaptive_right. Qed.
Print Assumptions C79_adaptive.
(** ** The parser accepts the sentences of the grammar, *)
Theorem C79_adaptive_accepts : forall conflict recover wait w, eof_last w ->
  ((exists x, parse (adaptive conflict recover wait) w = OK [x] []) <-> sentence w).
Proof.
  intros c r wt w EL. split.
  - intros (x & E). destruct (parse_all _ _ _ _ EL E) as (_ & y & _ & D). now exists y.
  - intros S. destruct (parse_complete _ _ (adaptive_right c r wt) (adaptive_right c r wt) w EL S) as (x & E & _). eauto.
Qed.
Print Assumptions C79_adaptive_accepts.
(** ** with the tree that the full context alone would give, *)
Theorem C79_adaptive_same : forall conflict recover wait w, eof_last w ->
  parse (adaptive conflict recover wait) w = parse predict w.
Proof.
  intros c r wt w EL. pose proof (adaptive_right c r wt) as R. pose proof (right_right _ predict_right) as R'.
  assert (A : forall o o' f rest, right_calls o -> right_calls o' -> parse o w = OK f rest -> parse o' w = OK f rest).
  { intros o o' f rest Ra Rb E. destruct (parse_all _ _ _ _ EL E) as (_ & x & _ & D).
    destruct (parse_complete o o' Ra Rb w EL (ex_intro _ x D)) as (y & E1 & E2). congruence. }
  destruct (parse (adaptive c r wt) w) as [f rest| |] eqn:E.
  - symmetry. exact (A _ _ _ _ R R' E).
  - destruct (parse predict w) as [f rest| |] eqn:E'; [|reflexivity|now apply C79_ends in E'].
    rewrite (A _ _ _ _ R' R E') in E. discriminate.
  - now apply C79_ends in E.
Qed.
Print Assumptions C79_adaptive_same.
(** ** and the same is loaded. *)
Theorem C81_adaptive : forall conflict recover wait data,
  load_file (adaptive conflict recover wait) data = load_file predict data.
Proof.
  intros c r wt data. destruct (file_tokens data) as (items & El & EL & _). unfold load_file, parse_file. rewrite El.
  now rewrite (C79_adaptive_same c r wt _ EL).
Qed.
Print Assumptions C81_adaptive.

(** *** Examples *)
(** The parser has ten such decisions. *)
Example adaptive_decisions : List.length decision_table = 10%nat.
Proof. vm_compute. reflexivity. Qed.
(** In the message of Props_Parser.v, the first stage alone answers at the enum (only the
    second alternative goes on after its name and brace), and at "option foo = 1;" both
    a field and an option go on up to the end of the file, and the second stage is needed. *)
Definition never (_ : nat) (_ : list tok) : bool := false.
Definition always (_ : nat) (_ : list tok) : bool := true.
Definition no_answer (_ : nat) (_ : list tok) : option nat := None.
Definition first_stage (d n : nat) : option stage :=
  match decision d with
  | Some (q, ls) => Some (exec_sll never no_answer d (sstart q ls) (skipn n ex_tokens))
  | None => None
  end.
Example adaptive_first : first_stage 27 9 = Some (Answer (Some 1%nat)).
Proof. vm_compute. reflexivity. Qed.
Example adaptive_second : first_stage 27 17 = Some FullContext.
Proof. vm_compute. reflexivity. Qed.
(** The alternatives of this decision are called for at the start of a message. *)
Example adaptive_called : exists ls k, In (27%nat, ls) (decisions_seq (body r_messageElement) []) /\
  outer r_messageElement k /\ called 27 (map (fun l => l ++ k) ls) /\ List.length ls = 10%nat /\ k <> [].
Proof.
  assert (O1 : exists k1, outer r_topLevelDef k1).
  { assert (E : exists rest, In (r_topLevelDef, rest) (calls r_proto)) by (eexists; vm_compute; tauto).
    destruct E as [rest E]. eexists. exact (outer_call _ _ _ _ E outer_start). }
  destruct O1 as [k1 O1].
  assert (O2 : exists k2, outer r_messageDef k2).
  { assert (E : exists rest, In (r_messageDef, rest) (calls r_topLevelDef)) by (eexists; vm_compute; tauto).
    destruct E as [rest E]. eexists. exact (outer_call _ _ _ _ E O1). }
  destruct O2 as [k2 O2].
  assert (O3 : exists k3, outer r_messageBody k3).
  { assert (E : exists rest, In (r_messageBody, rest) (calls r_messageDef)) by (eexists; vm_compute; tauto).
    destruct E as [rest E]. eexists. exact (outer_call _ _ _ _ E O2). }
  destruct O3 as [k3 O3].
  assert (E : exists x rest, In (r_messageElement, x :: rest) (calls r_messageBody)) by (do 2 eexists; vm_compute; tauto).
  destruct E as (x & rest & E). pose proof (outer_call _ _ _ _ E O3) as O4.
  assert (D : exists ls, In (27%nat, ls) (decisions_seq (body r_messageElement) []) /\ List.length ls = 10%nat)
    by (eexists; split; [vm_compute; left; reflexivity|reflexivity]).
  destruct D as (ls & D & Ln). exists ls, ((x :: rest) ++ k3). split; [exact D|]. split; [exact O4|]. split; [|split; [exact Ln|discriminate]].
  exists r_messageElement, ls, ((x :: rest) ++ k3). auto.
Qed.
Example adaptive_parse : exists x, parse (adaptive never no_answer never) ex_tokens = OK [x] [] /\
  map rules_below (find_rule r_messageElement x) = [[r_field]; [r_enumDef]; [r_field]].
Proof.
  assert (E : match parse (adaptive never no_answer never) ex_tokens with
              | OK [x] [] => map rules_below (find_rule r_messageElement x) | _ => [] end = [[r_field]; [r_enumDef]; [r_field]]) by (vm_compute; reflexivity).
  destruct (parse (adaptive never no_answer never) ex_tokens) as [[|x [|? ?]] [|? ?]| |]; try discriminate E. eauto.
Qed.
